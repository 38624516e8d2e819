(** * More about interruption: the user's mutex, progress, notifications, and an executable step for the examples *)
From Verif Require Export IT_Proofs.
Set Implicit Arguments.

Definition phaseU (s : sys) (t : nat) (p : pc) : Prop :=
  match p with
  | PWait c | PWaitD c | PWaitChk c | PWaitI c _ | PWaitUD c | PWaitUU c _ => last_call t (hist s) = Some (OWait c) /\ own s (U c) = Some t
  | PWaitGo c _ | PSleep c _ | PWoken c _ | PWaitUI c _ | PWaitClr c | PWaitClr2 c | PWaitU c => last_call t (hist s) = Some (OWait c)
  | PPoint | PPointD | PPointChk | PIdle => forall c, last_call t (hist s) = Some (OWait c) -> own s (U c) = Some t
  | _ => forall c, last_call t (hist s) <> Some (OWait c)
  end.
Definition InvU (s : sys) : Prop := forall t x, nth_error (thrs s) t = Some x -> phaseU s t (t_pc x).

Lemma last_call_run s t x m v : next s t x = Some m -> last_call v (m_ev m ++ hist s) = last_call v (hist s).
Proof.
  unfold next, go. destruct (t_pc x); try discriminate; try (destruct int); try (destruct all);
    try (destruct (t_en x)); try (destruct (req s t)); try (destruct (cur s t0)); intros [= <-]; reflexivity.
Qed.

Lemma phaseU_ext s s' t p : last_call t (hist s') = last_call t (hist s) -> (forall c, own s (U c) = Some t -> own s' (U c) = Some t) ->
  phaseU s t p -> phaseU s' t p.
Proof. intros Hl Ho. unfold phaseU. rewrite !Hl. destruct p; intuition. Qed.
Lemma phaseU_woken a y y' s t : same_or_woken a y y' -> phaseU s t (t_pc y) -> phaseU s t (t_pc y').
Proof. intros [->|(c & int & _ & E & ->)]; [auto|]. rewrite E. auto. Qed.

Lemma InvU_run s t x m o' l' : InvU s -> nth_error (thrs s) t = Some x -> next s t x = Some m ->
  effect t (m_act m) (own s) (set_thr (thrs s) t (MkThr (m_pc m) (t_en x) (t_scopes x))) o' l' ->
  InvU (MkSys o' (opt_req (req s) (m_req m)) (opt_cur (cur s) (m_cur m)) l' (m_ev m ++ hist s)).
Proof.
  intros HI Hx Hn He j y' Hj. cbn [thrs] in Hj. pose proof (HI t x Hx) as Hp. pose proof (effect_own He) as Ho.
  destruct (run_threads Hx Hn He j y' Hj) as [[-> ->]|(Hne & y & Hy & Hw)].
  - cbn [t_pc]. unfold phaseU in *. cbn [own hist]. rewrite !(last_call_run s t x _ Hn).
    clear - Hn Ho Hp. unfold next, go in Hn.
    destruct (t_pc x) eqn:E; try discriminate; try (destruct int); try (destruct all);
      try (destruct (t_en x)); try (destruct (req s t)); try (destruct (cur s t0)); injection Hn as <-; simpl in *;
      lazymatch type of Ho with _ /\ _ => destruct Ho as [_ Ho] | _ => idtac end; subst o';
      repeat (first [rewrite set_own_other by discriminate | rewrite set_own_same]); auto; try tauto.
    all: try (intros c' Hc'; rewrite ?set_own_other by discriminate; try apply Hp; try congruence; auto; fail).
    all: try (intros c' Hc'; destruct Hp as [Hp1 Hp2]; rewrite ?set_own_other by discriminate; congruence).
    all: intros c' Hc'; assert (c' = c) by congruence; subst; apply set_own_same.
  - eapply phaseU_woken; [exact Hw|]. eapply phaseU_ext; [| |exact (HI j y Hy)]; cbn [own hist].
    + exact (last_call_run s t x j Hn).
    + intros c Hc. eapply own_keep; [exact He|exact Hc|]. intros Hr.
      revert Hr Hp. unfold next, go in Hn. clear - Hn Hc Hne.
      destruct (t_pc x) eqn:E; try discriminate; try (destruct int); try (destruct all);
        try (destruct (t_en x)); try (destruct (req s t)); try (destruct (cur s t0)); injection Hn as <-; simpl; try discriminate;
        intros [= ->] [_ Hp]; congruence.
Qed.

Lemma InvU_step s s' : InvU s -> step s s' -> InvU s'.
Proof.
  intros HI Hs. destruct Hs as [t x o p Hx Hi Hp Hok|t x c Hx Hi Hok|t x o en sc Hx Hi Hsc|t x m o' l' Hx Hn He|t x c int Hx Hp].
  - intros j y Hj. cbn [thrs] in Hj. destruct (Nat.eq_dec t j) as [<-|Hne].
    + rewrite (set_thr_same _ _ _ Hx) in Hj. injection Hj as <-. cbn [t_pc]. unfold phaseU. cbn [hist last_call own]. rewrite Nat.eqb_refl.
      destruct o; simpl in Hp; try discriminate; injection Hp as <-; simpl in Hok; try discriminate; auto; intros; discriminate.
    + rewrite set_thr_other in Hj by auto. eapply phaseU_ext; [| |exact (HI j y Hj)]; cbn [hist own]; auto. simpl. apply Nat.eqb_neq in Hne. now rewrite Hne.
  - intros j y Hj. cbn [thrs] in Hj. destruct (Nat.eq_dec t j) as [<-|Hne].
    + rewrite Hx in Hj. injection Hj as <-. rewrite Hi. unfold phaseU. cbn [hist last_call]. rewrite Nat.eqb_refl. discriminate.
    + eapply phaseU_ext; [| |exact (HI j y Hj)]; cbn [hist own].
      * simpl. apply Nat.eqb_neq in Hne. now rewrite Hne.
      * intros c' Hc'. rewrite set_own_other; [exact Hc'|]. intros [= <-]. simpl in Hok. congruence.
  - intros j y Hj. cbn [thrs] in Hj. destruct (Nat.eq_dec t j) as [<-|Hne].
    + rewrite (set_thr_same _ _ _ Hx) in Hj. injection Hj as <-. cbn [t_pc]. unfold phaseU. cbn [hist last_call]. rewrite Nat.eqb_refl.
      destruct o; simpl in Hsc; discriminate.
    + rewrite set_thr_other in Hj by auto. eapply phaseU_ext; [| |exact (HI j y Hj)]; cbn [hist own]; auto. simpl. apply Nat.eqb_neq in Hne. now rewrite Hne.
  - exact (InvU_run HI Hx Hn He).
  - intros j y Hj. cbn [thrs] in Hj. destruct (Nat.eq_dec t j) as [<-|Hne].
    + rewrite (set_thr_same _ _ _ Hx) in Hj. injection Hj as <-. pose proof (HI t x Hx) as H. rewrite Hp in H. exact H.
    + rewrite set_thr_other in Hj by auto. exact (HI j y Hj).
Qed.
Lemma InvU_reach ens s : reach ens s -> InvU s.
Proof.
  induction 1 as [|s s' _ IH Hs]; [|exact (InvU_step IH Hs)].
  intros t x Hx. simpl in Hx. rewrite nth_error_map in Hx. destruct (nth_error ens t); [|discriminate]. injection Hx as <-. simpl. discriminate.
Qed.

(** ** Progress *)
Lemma effect_exists me a o l : (forall k, a = AAcq k -> o k = None) -> exists o' l', effect me a o l o' l'.
Proof.
  intros H. destruct a as [|k|k|c|c|c]; try (do 2 eexists; constructor; auto; fail).
  destruct (existsb (sleeps_on c) l) eqn:E.
  - apply existsb_exists in E as (x & Hin & Hs). apply In_nth_error in Hin as [i Hi]. do 2 eexists. eapply ef_signal; eauto.
  - do 2 eexists. apply ef_signal_none. intros x Hin. destruct (sleeps_on c x) eqn:Ex; [|reflexivity].
    assert (existsb (sleeps_on c) l = true) by (apply existsb_exists; eauto). congruence.
Qed.
Lemma can_run_step s t : can_run s t -> exists s', step s s'.
Proof.
  intros (x & m & Hx & Hn & Hl).
  destruct (@effect_exists t (m_act m) (own s) (set_thr (thrs s) t (MkThr (m_pc m) (t_en x) (t_scopes x))) Hl) as (o' & l' & He).
  eexists. eapply st_run; eauto.
Qed.

Lemma hI_runs s t x c : nth_error (thrs s) t = Some x -> hI (t_pc x) = Some c -> can_run s t.
Proof.
  intros Hx H. unfold can_run. exists x. destruct (t_pc x) eqn:E; simpl in H; try discriminate;
    unfold next; rewrite E; eexists; (split; [exact Hx|]); (split; [reflexivity|]); simpl; try discriminate.
  destruct all; discriminate.
Qed.
Lemma holder_I s c : Inv s -> own s (I c) <> None -> exists v, own s (I c) = Some v /\ can_run s v.
Proof.
  intros HI Ho. destruct (own s (I c)) as [v|] eqn:E; [|congruence]. exists v. split; [reflexivity|].
  destruct (i_own HI _ E) as (y & Hy & Hh). exact (hI_runs s v Hy Hh).
Qed.
Lemma hD_runs s t x d : Inv s -> nth_error (thrs s) t = Some x -> hD t (t_pc x) = Some d ->
  can_run s t \/ exists c, blocked_on s t (I c).
Proof.
  intros HI Hx H. destruct (next s t x) as [m|] eqn:Hn.
  - destruct (m_act m) as [|k|k|k|k|k] eqn:Ea;
      try (left; exists x, m; rewrite Ea; repeat split; auto; discriminate).
    assert (exists c, k = I c) as [c ->].
    { revert Hn Ea. unfold next, go. clear - H. destruct (t_pc x) eqn:E; simpl in H; try discriminate; try (destruct int);
        try (destruct (req s t)); try (destruct (cur s t0)); intros [= <-]; simpl; try discriminate; intros [= <-]; eauto. }
    destruct (own s (I c)) eqn:Eo.
    + right. exists c, x, m. rewrite Eo. repeat split; auto. discriminate.
    + left. exists x, m. repeat split; auto. rewrite Ea. intros l [= <-]. exact Eo.
  - exfalso. revert Hn. unfold next. destruct (t_pc x); simpl in H; try discriminate; try (destruct (req s t)); discriminate.
Qed.

(** ** An executable step, for examples *)
Inductive label := LCall (t : nat) (o : op) | LRun (t : nat) (pick : nat) | LWake (t : nat).

Definition exec_effect (me : nat) (a : act) (pick : nat) (o : lock -> option nat) (l : list thr) : option ((lock -> option nat) * list thr) :=
  match a with
  | ANone => Some (o, l)
  | AAcq k => match o k with None => Some (set_own o k (Some me), l) | Some _ => None end
  | ARel k => Some (set_own o k None, l)
  | ASleep c => Some (set_own o (I c) None, l)
  | ABroadcast c => Some (o, map (wake_all c) l)
  | ASignal c =>
      if existsb (sleeps_on c) l then
        match nth_error l pick with Some x => if sleeps_on c x then Some (o, set_thr l pick (wake_all c x)) else None | None => None end
      else Some (o, l)
  end.

Definition exec (lb : label) (s : sys) : option sys :=
  match lb with
  | LCall t o =>
      match nth_error (thrs s) t with
      | Some x =>
          match t_pc x with
          | PIdle =>
              match o with
              | OUnlock c => match own s (U c) with
                             | Some t' => if t' =? t then Some (MkSys (set_own (own s) (U c) None) (req s) (cur s) (thrs s) (ERet t :: ECall t o :: hist s)) else None
                             | None => None end
              | ODisable | ORestore _ | OEndScope =>
                  match do_scope o x with
                  | Some (en, sc) => Some (MkSys (own s) (req s) (cur s) (set_thr (thrs s) t (MkThr PIdle en sc)) (ERet t :: ECall t o :: hist s))
                  | None => None
                  end
              | _ =>
                  if match o with
                     | OLock c => match own s (U c) with Some t' => negb (t' =? t) | None => true end
                     | OWait c => match own s (U c) with Some t' => t' =? t | None => false end
                     | _ => true end
                  then match start o with
                       | Some p => Some (MkSys (own s) (req s) (cur s) (set_thr (thrs s) t (MkThr p (t_en x) (t_scopes x))) (ECall t o :: hist s))
                       | None => None
                       end
                  else None
              end
          | _ => None
          end
      | None => None
      end
  | LRun t pick =>
      match nth_error (thrs s) t with
      | Some x =>
          match next s t x with
          | Some m =>
              match exec_effect t (m_act m) pick (own s) (set_thr (thrs s) t (MkThr (m_pc m) (t_en x) (t_scopes x))) with
              | Some (o', l') => Some (MkSys o' (opt_req (req s) (m_req m)) (opt_cur (cur s) (m_cur m)) l' (m_ev m ++ hist s))
              | None => None
              end
          | None => None
          end
      | None => None
      end
  | LWake t =>
      match nth_error (thrs s) t with
      | Some x => match t_pc x with
                  | PSleep c int => Some (MkSys (own s) (req s) (cur s) (set_thr (thrs s) t (MkThr (PWoken c int) (t_en x) (t_scopes x))) (hist s))
                  | _ => None end
      | None => None
      end
  end.
Fixpoint execs (lbs : list label) (s : sys) : option sys :=
  match lbs with [] => Some s | lb :: lbs' => match exec lb s with Some s' => execs lbs' s' | None => None end end.

Lemma exec_effect_sound me a pick o l o' l' : exec_effect me a pick o l = Some (o', l') -> effect me a o l o' l'.
Proof.
  destruct a as [|k|k|c|c|c]; simpl; try (intros [= <- <-]; constructor).
  - destruct (o k) eqn:E; [discriminate|]. intros [= <- <-]. now constructor.
  - destruct (existsb (sleeps_on c) l) eqn:E.
    + destruct (nth_error l pick) as [x|] eqn:Ex; [|discriminate]. destruct (sleeps_on c x) eqn:Es; [|discriminate]. intros [= <- <-].
      eapply ef_signal; eauto.
    + intros [= <- <-]. apply ef_signal_none. intros x Hin. destruct (sleeps_on c x) eqn:Ex; [|reflexivity].
      assert (existsb (sleeps_on c) l = true) by (apply existsb_exists; eauto). congruence.
Qed.
Lemma exec_sound lb s s' : exec lb s = Some s' -> step s s'.
Proof.
  destruct lb as [t o|t pick|t]; simpl; (destruct (nth_error (thrs s) t) as [x|] eqn:Hx; [|discriminate]).
  - destruct (t_pc x) eqn:Hp; try discriminate.
    destruct o; try (destruct (do_scope _ x) as [[en sc]|] eqn:Es; [|discriminate]; intros [= <-]; eapply st_scope; eauto; fail).
    all: try (intros [= <-]; eapply st_call; eauto; simpl; auto; fail).
    + destruct (own s (U c)) as [t'|] eqn:Eo; simpl; [destruct (Nat.eqb_spec t' t) as [->|Hne]; simpl; [discriminate|]|];
        intros [= <-]; eapply st_call; eauto; simpl; rewrite Eo; congruence.
    + destruct (own s (U c)) as [t'|] eqn:Eo; [|discriminate]. destruct (Nat.eqb_spec t' t) as [->|Hne]; [|discriminate].
      intros [= <-]. eapply st_unlock; eauto.
    + destruct (own s (U c)) as [t'|] eqn:Eo; simpl; [|discriminate]. destruct (Nat.eqb_spec t' t) as [->|Hne]; simpl; [|discriminate].
      intros [= <-]. eapply st_call; eauto.
  - destruct (next s t x) as [m|] eqn:Hn; [|discriminate].
    destruct (exec_effect _ _ _ _ _) as [[o' l']|] eqn:He; [|discriminate]. intros [= <-]. apply exec_effect_sound in He. eapply st_run; eauto.
  - destruct (t_pc x) eqn:Hp; try discriminate. intros [= <-]. eapply st_wake; eauto.
Qed.
Lemma execs_reach ens lbs s s' : reach ens s -> execs lbs s = Some s' -> reach ens s'.
Proof.
  revert s. induction lbs as [|lb lbs IH]; intros s Hr; simpl; [intros [= <-]; exact Hr|].
  destruct (exec lb s) as [s1|] eqn:E; [|discriminate]. apply IH. eapply r_step; [exact Hr|]. exact (exec_sound _ _ E).
Qed.

(** ** The scopes *)
Definition conc (z : bool * bool) : scope := if fst z then Dis (snd z) else Res.
Definition InvS (ens : list bool) (s : sys) : Prop :=
  forall t x e0, nth_error (thrs s) t = Some x -> nth_error ens t = Some e0 -> restores_when_disabled e0 t (hist s) ->
    t_en x = should_be_enabled e0 t (hist s) /\ t_scopes x = map conc (snd (ideal e0 t (hist s))) /\
    Forall (fun z => fst z = false -> snd z = false) (snd (ideal e0 t (hist s))).

Lemma next_ev s t x m e0 v : next s t x = Some m ->
  ideal e0 v (m_ev m ++ hist s) = ideal e0 v (hist s) /\ (restores_when_disabled e0 v (m_ev m ++ hist s) <-> restores_when_disabled e0 v (hist s)).
Proof.
  unfold next, go. destruct (t_pc x); try discriminate; try (destruct int); try (destruct all);
    try (destruct (t_en x)); try (destruct (req s t)); try (destruct (cur s t0)); intros [= <-]; simpl; tauto.
Qed.
Lemma rwd_call e0 t o h : restores_when_disabled e0 t (ECall t o :: h) ->
  restores_when_disabled e0 t h /\ (forall k, o = ORestore k -> should_be_enabled e0 t h = false).
Proof. destruct o; simpl; intros H; split; try tauto; intros k0 E; try discriminate; now apply H. Qed.
Lemma rwd_other e0 t t' o h : t' <> t -> restores_when_disabled e0 t (ECall t' o :: h) -> restores_when_disabled e0 t h.
Proof. destruct o; simpl; tauto. Qed.

Lemma InvS_step ens s s' : InvS ens s -> step s s' -> InvS ens s'.
Proof.
  intros HI Hs. destruct Hs as [t x o p Hx Hi Hp Hok|t x c Hx Hi Hok|t x o en sc Hx Hi Hsc|t x m o' l' Hx Hn He|t x c int Hx Hp];
    intros j y e0 Hj He0 Hr; cbn [thrs hist] in *.
  - assert (Hr' : restores_when_disabled e0 j (hist s)).
    { destruct (Nat.eq_dec t j) as [->|Hne]; [exact (proj1 (@rwd_call _ _ _ _ Hr))|exact (@rwd_other _ _ _ _ _ Hne Hr)]. }
    assert (Hid : ideal e0 j (ECall t o :: hist s) = ideal e0 j (hist s)).
    { cbn [ideal]. destruct (t =? j); [|reflexivity]. destruct (ideal e0 j (hist s)). destruct o; try discriminate; reflexivity. }
    unfold should_be_enabled. rewrite Hid. destruct (Nat.eq_dec t j) as [->|Hne].
    + rewrite (set_thr_same _ _ _ Hx) in Hj. injection Hj as <-. exact (HI j x e0 Hx He0 Hr').
    + rewrite set_thr_other in Hj by auto. exact (HI j y e0 Hj He0 Hr').
  - assert (Hr' : restores_when_disabled e0 j (hist s)) by exact Hr.
    assert (Hid : ideal e0 j (ERet t :: ECall t (OUnlock c) :: hist s) = ideal e0 j (hist s)).
    { cbn [ideal]. destruct (t =? j); [|reflexivity]. destruct (ideal e0 j (hist s)). reflexivity. }
    unfold should_be_enabled. rewrite Hid. exact (HI j y e0 Hj He0 Hr').
  - destruct (Nat.eq_dec t j) as [->|Hne].
    + change (restores_when_disabled e0 j (ECall j o :: hist s)) in Hr. destruct (@rwd_call _ _ _ _ Hr) as [Hr' Hd].
      rewrite (set_thr_same _ _ _ Hx) in Hj. injection Hj as <-. destruct (HI j x e0 Hx He0 Hr') as (H1 & H2 & H3).
      unfold should_be_enabled in *. cbn [ideal t_en t_scopes]. rewrite Nat.eqb_refl.
      destruct (ideal e0 j (hist s)) as [ien stk] eqn:Ei. cbn [fst snd] in *. unfold do_scope in Hsc. clear Hr Hi Hx Ei.
      destruct o; try discriminate.
      * injection Hsc as <- <-. rewrite H1. simpl. rewrite H2. repeat split; auto. constructor; [discriminate|exact H3].
      * rewrite H2 in Hsc. simpl. rewrite nth_error_map in Hsc. destruct (nth_error stk k) as [[b w]|] eqn:Ek; [|discriminate].
        destruct b; simpl in Hsc; [|discriminate]. injection Hsc as <- <-. simpl. rewrite H1. repeat split; auto. constructor; [|exact H3].
        simpl. intros _. exact (Hd k eq_refl).
      * rewrite H2 in Hsc. destruct stk as [|[b w] stk]; [discriminate|]. inversion H3 as [|? ? Hz H3']. subst. simpl in *.
        destruct b; simpl in Hsc; injection Hsc as <- <-; repeat split; auto. symmetry. now apply Hz.
    + rewrite set_thr_other in Hj by auto. change (restores_when_disabled e0 j (ECall t o :: hist s)) in Hr.
      assert (Hr' := @rwd_other _ _ _ _ _ Hne Hr). unfold should_be_enabled. cbn [ideal]. apply Nat.eqb_neq in Hne. rewrite Hne.
      exact (HI j y e0 Hj He0 Hr').
  - destruct (next_ev s t x e0 j Hn) as [Hid Hrw]. unfold should_be_enabled. rewrite Hid. apply Hrw in Hr.
    destruct (run_threads Hx Hn He j y Hj) as [[-> ->]|(Hne & y0 & Hy & Hw)].
    + exact (HI t x e0 Hx He0 Hr).
    + destruct Hw as [->|(c & int & _ & _ & ->)]; exact (HI j y0 e0 Hy He0 Hr).
  - destruct (Nat.eq_dec t j) as [->|Hne].
    + rewrite (set_thr_same _ _ _ Hx) in Hj. injection Hj as <-. exact (HI j x e0 Hx He0 Hr).
    + rewrite set_thr_other in Hj by auto. exact (HI j y e0 Hj He0 Hr).
Qed.
Lemma InvS_reach ens s : reach ens s -> InvS ens s.
Proof.
  induction 1 as [|s s' _ IH Hs]; [|exact (InvS_step IH Hs)].
  intros t x e0 Hx He0 _. simpl in Hx. rewrite nth_error_map, He0 in Hx. injection Hx as <-. simpl. auto.
Qed.

(** ** Notifications *)
Lemma path_reach ens R s0 s : reach ens s0 -> path R s0 s -> reach ens s.
Proof. intros Hr. induction 1 as [|s s' _ IH Hs _]; [exact Hr|]. eapply r_step; eauto. Qed.

(** how the program counter of a thread inside a call changes *)
Lemma step_pc s s' u x : step s s' -> nth_error (thrs s) u = Some x -> t_pc x <> PIdle -> (forall c int, t_pc x <> PSleep c int) ->
  (exists x', nth_error (thrs s') u = Some x' /\ t_pc x' = t_pc x) \/
  (exists m o' l', next s u x = Some m /\ effect u (m_act m) (own s) (set_thr (thrs s) u (MkThr (m_pc m) (t_en x) (t_scopes x))) o' l' /\
     s' = MkSys o' (opt_req (req s) (m_req m)) (opt_cur (cur s) (m_cur m)) l' (m_ev m ++ hist s) /\
     exists x', nth_error l' u = Some x' /\ t_pc x' = m_pc m).
Proof.
  intros Hs Hu Hn Hsl. destruct Hs as [t x0 o p Hx Hi Hp Hok|t x0 c Hx Hi Hok|t x0 o en sc Hx Hi Hsc|t x0 m o' l' Hx Hnx He|t x0 c int Hx Hp]; cbn [thrs].
  - left. destruct (Nat.eq_dec t u) as [->|Hne]; [congruence|]. exists x. rewrite set_thr_other by auto. auto.
  - left. exists x. auto.
  - left. destruct (Nat.eq_dec t u) as [->|Hne]; [congruence|]. exists x. rewrite set_thr_other by auto. auto.
  - destruct (Nat.eq_dec t u) as [->|Hne].
    + right. assert (x0 = x) by congruence. subst x0. exists m, o', l'. repeat split; auto.
      destruct (run_threads_fwd Hx Hnx He) as [Ha _]. eexists. split; [exact Ha|reflexivity].
    + left. destruct (run_threads_fwd Hx Hnx He) as [_ Hb]. destruct (Hb u x (not_eq_sym Hne) Hu) as (y' & Hy & Hw). exists y'. split; [exact Hy|].
      destruct Hw as [->|(c & int & _ & E & _)]; [reflexivity|]. exfalso. exact (Hsl _ _ E).
  - left. destruct (Nat.eq_dec t u) as [->|Hne]; [exfalso; assert (x0 = x) by congruence; subst; exact (Hsl _ _ Hp)|]. exists x. rewrite set_thr_other by auto. auto.
Qed.

Lemma waiting_not_own_I s t c u : Inv s -> waiting s t c -> u <> t -> own s (I c) = Some u -> asleep s t c.
Proof.
  intros HI (x & int & Hx & [E|E]) Hne Ho; [|exists x, int; auto]. exfalso.
  assert (own s (I c) = Some t) by (eapply (i_holds HI (I c) Hx); rewrite E; reflexivity). congruence.
Qed.

Lemma notify_all_path ens s0 s1 u t c : reach ens s0 -> called s0 u (ONotifyAll c) -> waiting s0 t c ->
  path (fun _ s' => waiting s' t c) s0 s1 ->
  waiting s1 t c /\ exists y, nth_error (thrs s1) u = Some y /\ (t_pc y = PNotI c true \/ t_pc y = PNotB c true).
Proof.
  intros Hr (y & Hy & Hc) Hw Hp. assert (Hc' : t_pc y = PNotI c true) by (injection Hc; congruence).
  induction Hp as [|s s' Hp IH Hs Hw']; [eauto 6|]. split; [exact Hw'|].
  destruct IH as (Hws & z & Hz & Hpc). pose proof (Inv_reach (path_reach Hr Hp)) as HI.
  assert (Hut : u <> t).
  { intros ->. destruct Hws as (x & int & Hx & E). assert (x = z) by congruence. subst. intuition congruence. }
  destruct (@step_pc s s' u z Hs Hz) as [(z' & Hz' & E)|(m & o' & l' & Hn & He & -> & z' & Hz' & E)];
    [intuition congruence|intros c0 i0; intuition congruence| |].
  - exists z'. split; [exact Hz'|]. now rewrite E.
  - exists z'. split; [exact Hz'|]. destruct Hpc as [Hpc|Hpc]; unfold next in Hn; rewrite Hpc in Hn; injection Hn as <-.
    + right. exact E.
    + exfalso. simpl in He.
      assert (Ho : own s (I c) = Some u) by (apply (i_holds HI (I c) Hz); rewrite Hpc; reflexivity).
      destruct Hw' as (x' & int & Hx' & [E'|E']); cbn [thrs] in Hx'.
      * destruct (@waiting_not_own_I s t c u HI Hws Hut Ho) as (x & int' & Hx & Ex).
        destruct (effect_threads He t) as [[_ E2]|(q & q' & Hq & Hq' & Hww)]; [congruence|].
        rewrite set_thr_other in Hq by auto. assert (q' = x') by congruence. assert (q = x) by congruence. subst.
        destruct Hww as [->|(c1 & i1 & _ & _ & ->)]; [congruence|discriminate].
      * exact (@effect_broadcast_wakes _ _ _ _ _ _ _ _ int He Hx' E').
Qed.

Lemma interrupt_path ens s0 s1 u t c : reach ens s0 -> called s0 u (OInterrupt t) -> asleep_interruptibly s0 t c ->
  path (fun _ s' => asleep_interruptibly s' t c) s0 s1 ->
  asleep_interruptibly s1 t c /\ exists y, nth_error (thrs s1) u = Some y /\
    (t_pc y = PIntr t \/ t_pc y = PIntrSet t \/ t_pc y = PIntrI t c \/ t_pc y = PIntrB t c).
Proof.
  intros Hr (y & Hy & Hc) Hw Hp. assert (Hc' : t_pc y = PIntr t) by (injection Hc; congruence).
  induction Hp as [|s s' Hp IH Hs Hw']; [eauto 8|]. split; [exact Hw'|].
  destruct IH as (Hws & z & Hz & Hpc). pose proof (Inv_reach (path_reach Hr Hp)) as HI.
  destruct (@step_pc s s' u z Hs Hz) as [(z' & Hz' & E)|(m & o' & l' & Hn & He & -> & z' & Hz' & E)];
    [intuition congruence|intros c0 i0; intuition congruence| |].
  - exists z'. split; [exact Hz'|]. now rewrite E.
  - exists z'. split; [exact Hz'|]. destruct Hws as (x & Hx & Ex).
    destruct Hpc as [Hpc|[Hpc|[Hpc|Hpc]]]; unfold next in Hn; rewrite Hpc in Hn; injection Hn as <-; simpl in E.
    + auto.
    + rewrite (i_cur HI Hx), Ex in E. simpl in E. auto.
    + auto.
    + exfalso. simpl in He. destruct Hw' as (x' & Hx' & E'). exact (@effect_broadcast_wakes _ _ _ _ _ _ _ _ true He Hx' E').
Qed.

Lemma signal_path ens s0 s1 u t c : reach ens s0 -> called s0 u (ONotifyOne c) -> waiting s0 t c ->
  path (fun s s' => forall v, waiting s v c -> waiting s' v c) s0 s1 ->
  waiting s1 t c /\ exists y, nth_error (thrs s1) u = Some y /\ (t_pc y = PNotI c false \/ t_pc y = PNotB c false).
Proof.
  intros Hr (y & Hy & Hc) Hw Hp. assert (Hc' : t_pc y = PNotI c false) by (injection Hc; congruence).
  induction Hp as [|s s' Hp IH Hs Hw']; [eauto 6|].
  destruct IH as (Hws & z & Hz & Hpc). split; [exact (Hw' t Hws)|]. pose proof (Inv_reach (path_reach Hr Hp)) as HI.
  assert (Hut : u <> t).
  { intros ->. destruct Hws as (x & int & Hx & E). assert (x = z) by congruence. subst. intuition congruence. }
  destruct (@step_pc s s' u z Hs Hz) as [(z' & Hz' & E)|(m & o' & l' & Hn & He & -> & z' & Hz' & E)];
    [intuition congruence|intros c0 i0; intuition congruence| |].
  - exists z'. split; [exact Hz'|]. now rewrite E.
  - exists z'. split; [exact Hz'|]. destruct Hpc as [Hpc|Hpc]; unfold next in Hn; rewrite Hpc in Hn; injection Hn as <-.
    + right. exact E.
    + exfalso. simpl in He.
      assert (Ho : own s (I c) = Some u) by (apply (i_holds HI (I c) Hz); rewrite Hpc; reflexivity).
      destruct (@waiting_not_own_I s t c u HI Hws Hut Ho) as (x & int & Hx & Ex).
      inversion He as [| | | | |o0 l0 c0 i xi Hi Hsi|o0 l0 c0 Hno]; subst.
      * assert (Hiu : i <> u).
        { intros ->. rewrite (set_thr_same _ _ _ Hz) in Hi. injection Hi as <-. discriminate. }
        rewrite set_thr_other in Hi by auto.
        assert (Hwi : waiting s i c).
        { unfold sleeps_on in Hsi. destruct (t_pc xi) as [| | | | | | | | |c' int'| | | | | | | | | | | | | | | | |] eqn:Ei; try discriminate.
          apply Nat.eqb_eq in Hsi. subst c'. exists xi, int'. auto. }
        destruct (Hw' i Hwi) as (x' & int' & Hx' & E'). cbn [thrs] in Hx'.
        rewrite (@set_thr_same _ i _ xi) in Hx' by (rewrite set_thr_other by auto; exact Hi). injection Hx' as <-.
        unfold sleeps_on in Hsi. unfold wake_all in E'.
        destruct (t_pc xi) as [| | | | | | | | |c' int1| | | | | | | | | | | | | | | | |] eqn:Ei; try discriminate. rewrite Hsi in E'. destruct E'; discriminate.
      * assert (Hin : In x (set_thr (thrs s) u (MkThr (PNotUI c) (t_en z) (t_scopes z)))).
        { apply nth_error_In with t. rewrite set_thr_other by auto. exact Hx. }
        specialize (Hno x Hin). unfold sleeps_on in Hno. rewrite Ex, Nat.eqb_refl in Hno. discriminate.
Qed.

(** The path predicate is transitive with runs of the executable step. *)
Lemma execs_path lbs s s' : execs lbs s = Some s' -> path (fun _ _ => True) s s'.
Proof.
  assert (G : forall lbs s0 s s', path (fun _ _ => True) s0 s -> execs lbs s = Some s' -> path (fun _ _ => True) s0 s').
  { intros lbs0; induction lbs0 as [|lb l IH]; intros s0 s1 s2 Hp; simpl; [intros [= <-]; exact Hp|].
    destruct (exec lb s1) as [s3|] eqn:E; [|intros H; discriminate H]. apply IH. eapply p_step; [exact Hp|exact (exec_sound _ _ E)|exact (Logic.I)]. }
  apply G. constructor.
Qed.


Lemma execs_ex ens lbs (Q : sys -> Prop) :
  match execs lbs (init ens) with Some s => Q s | None => False end -> exists s, reach ens s /\ Q s.
Proof.
  destruct (execs lbs (init ens)) as [s|] eqn:E; [|tauto]. intros H. exists s. split; [|exact H]. eapply execs_reach; [constructor|exact E].
Qed.
Lemma execs_ex2 ens l0 l1 (Q : sys -> sys -> Prop) :
  match execs l0 (init ens) with Some s0 => match execs l1 s0 with Some s1 => Q s0 s1 | None => False end | None => False end ->
  exists s0 s1, reach ens s0 /\ path (fun _ _ => True) s0 s1 /\ Q s0 s1.
Proof.
  destruct (execs l0 (init ens)) as [s0|] eqn:E0; [|tauto]. destruct (execs l1 s0) as [s1|] eqn:E1; [|tauto].
  intros H. exists s0, s1. split; [eapply execs_reach; [constructor|exact E0]|]. split; [exact (execs_path _ _ E1)|exact H].
Qed.
