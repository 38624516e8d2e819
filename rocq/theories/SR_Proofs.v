(** * Schedulers: invariant *)
From Coq Require Import Permutation.
From Verif Require Import SR_Model SR_Spec.
Set Implicit Arguments.

Section L.
Variable A : Type.
Lemma nth_modify (l : list A) t f i : nth_error (modify l t f) i = if i =? t then option_map f (nth_error l i) else nth_error l i.
Proof. revert t i. induction l as [|a l IH]; intros t i; [destruct t, i; cbn; try reflexivity; destruct (i =? t); reflexivity|]. destruct t, i; cbn; auto. Qed.
Lemma modify_length (l : list A) t f : length (modify l t f) = length l.
Proof. revert t. induction l; intros [|t]; cbn; auto. Qed.
Lemma in_remove (l : list A) j x : In x (remove_nth l j) -> In x l.
Proof. revert j. induction l as [|a l IH]; intros [|j]; cbn; auto. intros [H|H]; eauto. Qed.
Lemma perm_remove (l : list A) j x : nth_error l j = Some x -> Permutation l (x :: remove_nth l j).
Proof. revert j. induction l as [|a l IH]; intros [|j] H; cbn in *; try discriminate; [injection H as ->; auto|]. rewrite (IH _ H) at 1. apply perm_swap. Qed.
Lemma fm_modify B (f : A -> list B) l t x y : nth_error l t = Some x -> exists r, Permutation (flat_map f l) (f x ++ r) /\ Permutation (flat_map f (modify l t (fun _ => y))) (f y ++ r).
Proof.
  revert t. induction l as [|a l IH]; intros [|t] H; cbn in *; try discriminate.
  - injection H as ->. exists (flat_map f l). auto.
  - destruct (IH _ H) as (r & E1 & E2). exists (f a ++ r). rewrite E1, E2. split; rewrite !app_assoc; apply Permutation_app_tail, Permutation_app_comm.
Qed.
End L.

Definition cid (x : wk) : list nat := match ws x with WCall it => [iid it] | _ => [] end.
Definition rid (x : wk) : list nat := match ws x with WIn it => [iid it] | _ => [] end.
Definition bid (e : event) : list nat := match e with ERun i _ => [i] | EResub i _ _ => [i] | _ => [] end.
Definition ids (s : sys) : list nat := map iid (pend s) ++ flat_map cid (wks s) ++ flat_map bid (hist s).

Definition held (s : sys) (it : item) : Prop := In it (pend s) \/ exists k x, nth_error (wks s) k = Some x /\ (ws x = WCall it \/ ws x = WIn it).

Record inv (s : sys) : Prop := {
  i_ids : Permutation (seq 0 (next s)) (ids s);
  i_rids : NoDup (flat_map rid (wks s));
  i_held : forall it, held s it -> In (ESub (iid it) (due it) (on it)) (hist s);
  i_call : forall k x it, nth_error (wks s) k = Some x -> ws x = WCall it \/ ws x = WIn it -> (due it <= now s)%Z;
  i_in : forall k x it, nth_error (wks s) k = Some x -> ws x = WIn it -> on it = None /\ (exists c, In (ERun (iid it) c) (hist s)) /\ ~ In (EEnd (iid it)) (hist s) /\ ~ In (EEscape (iid it)) (hist s);
  i_lt : forall i d k, In (ESub i d k) (hist s) -> i < next s /\ forall e, k = Some e -> e < length (exs s);
  i_uniq : forall i d k d' k', In (ESub i d k) (hist s) -> In (ESub i d' k') (hist s) -> d = d' /\ k = k';
  i_run : forall i c, In (ERun i c) (hist s) -> (exists d, In (ESub i d None) (hist s) /\ (d <= c)%Z) /\ (In (EEnd i) (hist s) \/ In (EEscape i) (hist s) \/ exists k x it, nth_error (wks s) k = Some x /\ ws x = WIn it /\ iid it = i);
  i_res : forall i e c, In (EResub i e c) (hist s) -> exists d, In (ESub i d (Some e)) (hist s) /\ (d <= c)%Z;
  i_end : forall i, In (EEnd i) (hist s) \/ In (EEscape i) (hist s) -> exists c, In (ERun i c) (hist s);
  i_wr : forall w y, nth_error (wraps s) w = Some y -> (forall e, won y = Some e -> e < length (exs s)) /\ (wcl y = true -> In EWClose (hist s));
  i_pc : forall t d k e, nth_error (cls s) t = Some (PPush (d, k)) -> k = Some e -> e < length (exs s);
  i_cl : closed s = true <-> exists c, In (EClose c) (hist s);
  i_clt : forall c, In (EClose c) (hist s) -> (c <= now s)%Z;
  i_gone : forall k x, nth_error (wks s) k = Some x -> ws x = WGone ->
    In EThrown (hist s) \/ (exists i, In (EEscape i) (hist s)) \/ (closed s = true /\ forall it, In it (pend s) -> exists c, In (EClose c) (hist s) /\ (c < due it)%Z);
  i_des : forall c, In (EDestroy c) (hist s) -> In EDestroyed (hist s) \/ exists t p, nth_error (cls s) t = Some p /\ match p with PClose => True | PIntr _ | PJoin => closed s = true | _ => False end;
  i_dd : In EDestroyed (hist s) -> forall k x, nth_error (wks s) k = Some x -> ws x = WGone;
  i_jn : forall t p, nth_error (cls s) t = Some p -> match p with PIntr _ | PJoin => closed s = true | _ => True end;
  i_dest : In EDestroyed (hist s) -> closed s = true;
  i_dead : dead s = true <-> terminated (hist s);
  i_term : forall i, In (ETerm i) (hist s) -> In (EThrew i) (hist s) \/ exists d e, In (ESub i d (Some e)) (hist s) /\ In (ECloseE e) (hist s);
  i_x : forall e y, nth_error (exs s) e = Some y -> xgot y = given e (hist s) /\ (xcl y = true -> In (ECloseE e) (hist s)) }.

Lemma nth_mod A (l : list A) t f i y : nth_error (modify l t f) i = Some y -> (i = t /\ exists x, nth_error l t = Some x /\ y = f x) \/ (i <> t /\ nth_error l i = Some y).
Proof.
  rewrite nth_modify. destruct (i =? t) eqn:E; [apply Nat.eqb_eq in E; subst i|apply Nat.eqb_neq in E; auto].
  destruct (nth_error l t) as [x|]; cbn; intros H; [injection H as <-; left; eauto|discriminate].
Qed.
Ltac mdn := repeat match goal with
  | H : nth_error (modify ?l ?t ?f) ?i = Some _ |- _ =>
      let E := fresh "E" in let y := fresh "y" in let Hy := fresh "Hy" in
      let Ey := fresh "Ey" in
      apply nth_mod in H; destruct H as [(-> & y & Hy & Ey)|(E & H)]; [cbn beta in Ey; first [discriminate Ey | subst | idtac] | ]
  end.

(** ** Steps of the clients that change their own program counter, wrappers and the history only *)
Definition quiet (e : event) : Prop := match e with ERej | EWClose | EDestroy _ => True | _ => False end.
Lemma bid_quiet es h : Forall quiet es -> flat_map bid (es ++ h) = flat_map bid h.
Proof. induction 1 as [|e es He Hs IH]; [reflexivity|]. cbn. rewrite IH. destruct e; cbn in *; try contradiction; reflexivity. Qed.
Lemma given_quiet e es h : Forall quiet es -> given e (es ++ h) = given e h.
Proof. intros H. unfold given. f_equal. induction H as [|a es He Hs IH]; [reflexivity|]. cbn. rewrite IH. destruct a; cbn in *; try contradiction; reflexivity. Qed.
Lemma in_quiet e es h : Forall quiet es -> In e (es ++ h) -> quiet e \/ In e h.
Proof. intros H Hin. apply in_app_or in Hin as [Hin|Hin]; [left; rewrite Forall_forall in H; auto|auto]. Qed.

Lemma inv_quiet s ws' cl' es : inv s -> Forall quiet es ->
  (forall w y, nth_error ws' w = Some y -> (forall e, won y = Some e -> e < length (exs s)) /\ (wcl y = true -> In EWClose (es ++ hist s))) ->
  (forall t p, nth_error cl' t = Some p -> match p with PPush (d, k) => forall e, k = Some e -> e < length (exs s) | PIntr _ | PJoin => closed s = true | _ => True end) ->
  (forall c, In (EDestroy c) (es ++ hist s) -> In EDestroyed (hist s) \/ exists t p, nth_error cl' t = Some p /\ match p with PClose => True | PIntr _ | PJoin => closed s = true | _ => False end) ->
  inv (Sys (now s) (closed s) (pend s) (next s) (wks s) (exs s) ws' cl' (dead s) (es ++ hist s)).
Proof.
  intros HI Hq Hw Hc Hd.
  assert (R : forall e, In e (hist s) -> In e (es ++ hist s)) by (intros; apply in_or_app; auto).
  assert (L : forall e, ~ quiet e -> In e (es ++ hist s) -> In e (hist s)) by (intros e Hn H; destruct (in_quiet _ _ Hq H); tauto).
  constructor; cbn [now closed pend next wks exs wraps cls dead hist].
  - unfold ids. cbn. rewrite bid_quiet by exact Hq. exact (i_ids HI).
  - exact (i_rids HI).
  - intros it H. apply R, (i_held HI). exact H.
  - exact (i_call HI).
  - intros k x it Hx E. destruct (i_in HI _ Hx E) as (A & (c & B) & C & D). split; [exact A|]. split; [eauto|]. split; intros H; [apply C|apply D]; apply L; cbn; auto.
  - intros i d k H. apply L in H; [|cbn; auto]. exact (i_lt HI _ _ _ H).
  - intros i d k d' k' H H'. apply L in H; [|cbn; auto]. apply L in H'; [|cbn; auto]. exact (i_uniq HI _ _ _ _ _ H H').
  - intros i c H. apply L in H; [|cbn; auto]. destruct (i_run HI _ _ H) as ((d & A & B) & C). split; [eauto|]. destruct C as [C|[C|C]]; auto.
  - intros i e c H. apply L in H; [|cbn; auto]. destruct (i_res HI _ _ _ H) as (d & A & B). eauto.
  - intros i H. destruct (i_end HI i) as (c & A); [destruct H as [H|H]; apply L in H; cbn; auto|eauto].
  - exact Hw.
  - intros t d k e Ht Ek. exact (Hc _ _ Ht e Ek).
  - split; [intros H; apply (i_cl HI) in H as (c & H); eauto|intros (c & H); apply (i_cl HI); exists c; apply L; cbn; auto].
  - intros c H. apply (i_clt HI). apply L; cbn; auto.
  - intros k x Hx E. destruct (i_gone HI _ Hx E) as [A|[(i & A)|(A & B)]]; [auto|eauto|]. right; right. split; [exact A|]. intros it Hin. destruct (B _ Hin) as (c & C & D). eauto.
  - intros c H. destruct (Hd _ H) as [A|A]; auto.
  - intros H. apply (i_dd HI). apply L; cbn; auto.
  - intros t p Ht. specialize (Hc _ _ Ht). destruct p; auto.
  - intros H. apply (i_dest HI). apply L; cbn; auto.
  - split; [intros H; apply (i_dead HI) in H as (i & H); exists i; auto|intros (i & H); apply (i_dead HI); exists i; apply L; cbn; auto].
  - intros i H. apply L in H; [|cbn; auto]. destruct (i_term HI _ H) as [A|(d & e & A & B)]; [auto|eauto 10].
  - intros e y Hy. rewrite given_quiet by exact Hq. destruct (i_x HI _ Hy) as (A & B). auto.
Qed.

(** ** Steps of a thread of the scheduler that does not end: the rest changes by what it says *)
Lemma in_app3 (e : event) es h : In e h -> In e (es ++ h).
Proof. intros; apply in_or_app; auto. Qed.

Lemma inv_close s cl' : inv s -> (forall t p, nth_error cl' t = Some p -> match p with PPush (d, k) => forall e, k = Some e -> e < length (exs s) | _ => True end) ->
  (forall c, In (EDestroy c) (hist s) -> In EDestroyed (hist s) \/ exists t p, nth_error cl' t = Some p /\ match p with PClose | PIntr _ | PJoin => True | _ => False end) ->
  inv (Sys (now s) true (pend s) (next s) (wks s) (exs s) (wraps s) cl' (dead s) (EClose (now s) :: hist s)).
Proof.
  intros HI Hc Hd.
  assert (L : forall e, match e with EClose _ => False | _ => True end -> In e (EClose (now s) :: hist s) -> In e (hist s)) by (intros e Hn [<-|H]; [contradiction|exact H]).
  constructor; cbn [now closed pend next wks exs wraps cls dead hist].
  - unfold ids. cbn. exact (i_ids HI).
  - exact (i_rids HI).
  - intros it H. right. apply (i_held HI). exact H.
  - exact (i_call HI).
  - intros k x it Hx E. destruct (i_in HI _ Hx E) as (A & (c & B) & C & D). split; [exact A|]. split; [exists c; right; auto|]. split; intros [H|H]; [discriminate|auto|discriminate|auto].
  - intros i d k [H|H]; [discriminate|]. exact (i_lt HI _ _ _ H).
  - intros i d k d' k' [H|H] [H'|H']; try discriminate. exact (i_uniq HI _ _ _ _ _ H H').
  - intros i c [H|H]; [discriminate|]. destruct (i_run HI _ _ H) as ((d & A & B) & C). split; [exists d; split; [right|]; auto|]. destruct C as [C|[C|C]]; [left; right|right; left; right|right; right]; auto.
  - intros i e c [H|H]; [discriminate|]. destruct (i_res HI _ _ _ H) as (d & A & B). exists d; split; [right|]; auto.
  - intros i H. destruct (i_end HI i) as (c & A); [destruct H as [[H|H]|[H|H]]; try discriminate; auto|]. exists c. right. exact A.
  - intros w y Hy. destruct (i_wr HI _ Hy) as (A & B). split; [exact A|]. intros; right; auto.
  - intros t d k e Ht Ek. exact (Hc _ _ Ht e Ek).
  - split; [intros _; eexists; left; reflexivity|auto].
  - intros c [H|H]; [injection H as <-; lia|]. apply (i_clt HI). auto.
  - intros k x Hx E. destruct (i_gone HI _ Hx E) as [A|[(i & A)|(A & B)]]; [left; right; auto|right; left; exists i; right; auto|]. right; right. split; [reflexivity|]. intros it Hin. destruct (B _ Hin) as (c & C & D). exists c. split; [right; auto|auto].
  - intros c [H|H]; [discriminate|]. destruct (Hd _ H) as [A|(t & p & A & B)]; [left; right; auto|]. right. exists t, p. split; [auto|]. destruct p; auto.
  - intros [H|H]; [discriminate|]. exact (i_dd HI H).
  - intros t p Ht. destruct p; auto.
  - auto.
  - split; [intros H; apply (i_dead HI) in H as (i & H); exists i; right; auto|intros (i & [H|H]); [discriminate|]; apply (i_dead HI); exists i; auto].
  - intros i [H|H]; [discriminate|]. destruct (i_term HI _ H) as [A|(d & e & A & B)]; [left; right; auto|]. right. exists d, e. split; right; auto.
  - intros e y Hy. destruct (i_x HI _ Hy) as (A & B). split; [exact A|]. intros; right; auto.
Qed.

(** ** A step of thread k of the scheduler, from x to y *)
Definition wev (e : event) : Prop := match e with ERun _ _ | EEnd _ | EEscape _ | EThrown => True | _ => False end.
Lemma inv_w s k x y es : inv s -> Forall wev es -> nth_error (wks s) k = Some x -> ws x <> WGone ->
  (forall it, ws y = WCall it \/ ws y = WIn it -> ws x = WCall it \/ ws x = WIn it) ->
  Permutation (cid x) (cid y ++ flat_map bid es) ->
  (rid y = [] \/ rid y = rid x \/ exists i, rid y = [i] /\ ~ (exists c, In (ERun i c) (hist s))) ->
  (forall it, ws y = WIn it -> on it = None /\ (exists c, In (ERun (iid it) c) (es ++ hist s)) /\ ~ In (EEnd (iid it)) (es ++ hist s) /\ ~ In (EEscape (iid it)) (es ++ hist s)) ->
  (forall i, In (EEnd i) es \/ In (EEscape i) es -> exists it, ws x = WIn it /\ iid it = i) ->
  (forall i c, In (ERun i c) es -> (exists d, In (ESub i d None) (hist s) /\ (d <= c)%Z) /\ exists it, ws y = WIn it /\ iid it = i) ->
  (forall it, ws x = WIn it -> (exists it', ws y = WIn it' /\ iid it' = iid it) \/ In (EEnd (iid it)) es \/ In (EEscape (iid it)) es) ->
  (ws y = WGone -> In EThrown es \/ (exists i, In (EEscape i) es) \/ (closed s = true /\ forall it, In it (pend s) -> exists c, In (EClose c) (hist s) /\ (c < due it)%Z)) ->
  inv (set_w s k y es).
Proof.
  intros HI Hq Hx Hng Hit Hcid Hrid Hin Hend Hrun Hkeep Hgone.
  assert (R : forall e, In e (hist s) -> In e (es ++ hist s)) by (intros; apply in_or_app; auto).
  assert (L : forall e, ~ wev e -> In e (es ++ hist s) -> In e (hist s)).
  { intros e Hn H. apply in_app_or in H as [H|H]; [|exact H]. rewrite Forall_forall in Hq. specialize (Hq _ H). contradiction. }
  assert (ND : ~ In EDestroyed (hist s)) by (intros H; exact (Hng (i_dd HI H _ Hx))).
  assert (NX : forall k' x' it it', k' <> k -> nth_error (wks s) k' = Some x' -> ws x' = WIn it' -> ws x = WIn it -> iid it' <> iid it).
  { intros k' x' it it' Hk Hx' E' E Eq. pose proof (i_rids HI) as ND'. clear - Hk Hx Hx' E E' Eq ND'.
    revert k k' Hk Hx Hx' ND'. generalize (wks s). induction l as [|a l IH]; intros [|k] [|k'] Hk Hx Hx' ND'; cbn in *; try discriminate; try congruence.
    - injection Hx as ->. unfold rid in ND' at 1. rewrite E in ND'. cbn in ND'. inversion ND' as [|? ? Hni _]; subst. apply Hni, in_flat_map. exists x'. split; [eapply nth_error_In; eauto|]. unfold rid. rewrite E'. left. auto.
    - injection Hx' as ->. unfold rid in ND' at 1. rewrite E' in ND'. cbn in ND'. inversion ND' as [|? ? Hni _]; subst. apply Hni, in_flat_map. exists x. split; [eapply nth_error_In; eauto|]. unfold rid. rewrite E. left. auto.
    - apply (IH k k'); auto. destruct (rid a) as [|r [|]] eqn:Ea; [exact ND'|cbn in ND'; inversion ND'; auto|]. unfold rid in Ea. destruct (ws a); discriminate. }
  unfold set_w. constructor; cbn [now closed pend next wks exs wraps cls dead hist].
  - unfold ids. cbn [pend wks hist]. destruct (fm_modify cid (wks s) k y Hx) as (r & E1 & E2). rewrite (i_ids HI). unfold ids. apply Permutation_app_head. rewrite E1, E2, flat_map_app, Hcid.
    rewrite <- !app_assoc. apply Permutation_app_head. rewrite !app_assoc. apply Permutation_app_tail, Permutation_app_comm.
  - destruct (fm_modify rid (wks s) k y Hx) as (r & E1 & E2). pose proof (i_rids HI) as N. rewrite E1 in N. apply (Permutation_NoDup (Permutation_sym E2)). destruct Hrid as [->|[->|(i & -> & Hni)]].
    + cbn. clear - N. induction (rid x); [exact N|]. inversion N; auto.
    + exact N.
    + cbn. assert (Hr : NoDup r) by (clear - N; induction (rid x); [exact N|]; inversion N; auto). constructor; [|exact Hr]. intros H. apply Hni.
      assert (H' : In i (flat_map rid (wks s))) by (rewrite E1; apply in_or_app; auto). apply in_flat_map in H' as (x' & Hx' & Hi). unfold rid in Hi. destruct (ws x') as [| | |it|] eqn:Ex; try contradiction.
      destruct Hi as [<-|[]]. apply In_nth_error in Hx' as (k' & Hx'). destruct (i_in HI _ Hx' Ex) as (_ & A & _). exact A.
  - intros it H. apply R, (i_held HI). destruct H as [H|(k' & x' & Hx' & H)]; [left; exact H|]. right. cbn [wks] in Hx'. mdn; [exists k, x; split; [exact Hx|exact (Hit _ H)]|eauto].
  - intros k' x' it Hx' H. mdn; [exact (i_call HI _ Hx (Hit _ H))|exact (i_call HI _ Hx' H)].
  - intros k' x' it Hx' H. mdn; [auto|]. destruct (i_in HI _ Hx' H) as (A & (c & B) & C & D). split; [exact A|]. split; [eauto|].
    split; intros F; apply in_app_or in F as [F|F]; auto; destruct (Hend (iid it)) as (it' & E1 & E2); auto; eapply NX; eauto.
  - intros i d o H. apply L in H; [|cbn; auto]. exact (i_lt HI _ _ _ H).
  - intros i d o d' o' H H'. apply L in H; [|cbn; auto]. apply L in H'; [|cbn; auto]. exact (i_uniq HI _ _ _ _ _ H H').
  - intros i c H. apply in_app_or in H as [H|H].
    + destruct (Hrun _ _ H) as ((d & A & B) & it & C & D). split; [eauto|]. right; right. exists k, y, it. split; [rewrite nth_modify, Nat.eqb_refl, Hx; reflexivity|auto].
    + destruct (i_run HI _ _ H) as ((d & A & B) & C). split; [eauto|]. destruct C as [C|[C|(k' & x' & it & Hx' & E1 & E2)]]; auto. destruct (Nat.eq_dec k' k) as [->|Hk].
      * assert (x' = x) by congruence. subst x'. destruct (Hkeep _ E1) as [(it' & F1 & F2)|[F|F]].
        -- right; right. exists k, y, it'. split; [rewrite nth_modify, Nat.eqb_refl, Hx; reflexivity|split; [auto|congruence]].
        -- left. rewrite <- E2. apply in_or_app; auto.
        -- right; left. rewrite <- E2. apply in_or_app; auto.
      * right; right. exists k', x', it. split; [rewrite nth_modify; apply Nat.eqb_neq in Hk; rewrite Hk; exact Hx'|auto].
  - intros i e c H. apply L in H; [|cbn; auto]. destruct (i_res HI _ _ _ H) as (d & A & B). eauto.
  - intros i H. assert (G : (In (EEnd i) es \/ In (EEscape i) es) \/ (In (EEnd i) (hist s) \/ In (EEscape i) (hist s))) by (destruct H as [H|H]; apply in_app_or in H as [H|H]; auto).
    destruct G as [G|G]; [|destruct (i_end HI _ G) as (c & A); eauto]. destruct (Hend _ G) as (it & E1 & E2). destruct (i_in HI _ Hx E1) as (_ & (c & A) & _). rewrite <- E2. eauto.
  - intros w v Hv. destruct (i_wr HI _ Hv) as (A & B). split; auto.
  - exact (i_pc HI).
  - split; [intros H; apply (i_cl HI) in H as (c & H); eauto|intros (c & H); apply (i_cl HI); exists c; apply L; cbn; auto].
  - intros c H. apply (i_clt HI). apply L; cbn; auto.
  - assert (W : forall e, In e es -> In e (es ++ hist s)) by (intros; apply in_or_app; auto).
    intros k' x' Hx' E. mdn.
    + destruct (Hgone E) as [A|[(i & A)|(A & B)]]; [auto|eauto|]. right; right. split; [exact A|]. intros it Hp. destruct (B _ Hp) as (c & C & D). eauto.
    + destruct (i_gone HI _ Hx' E) as [A|[(i & A)|(A & B)]]; [auto|eauto|]. right; right. split; [exact A|]. intros it Hp. destruct (B _ Hp) as (c & C & D). eauto.
  - intros c H. apply L in H; [|cbn; auto]. destruct (i_des HI _ H) as [A|A]; auto.
  - intros H. apply L in H; [|cbn; auto]. contradiction.
  - exact (i_jn HI).
  - intros H. apply L in H; [|cbn; auto]. contradiction.
  - split; [intros H; apply (i_dead HI) in H as (i & H); exists i; auto|intros (i & H); apply (i_dead HI); exists i; apply L; cbn; auto].
  - intros i H. apply L in H; [|cbn; auto]. destruct (i_term HI _ H) as [A|(d & e & A & B)]; [auto|eauto 10].
  - intros e v Hv. destruct (i_x HI _ Hv) as (A & B). split; [|auto]. rewrite A. unfold given. f_equal. clear - Hq. induction Hq as [|a es He Hs IH]; [reflexivity|]. cbn. rewrite <- IH. destruct a; cbn in *; try contradiction; reflexivity.
Qed.

(** flags, and falling asleep or waking up *)
Definition dull (w : wst) : Prop := w = WPoll \/ w = WSleep.
Lemma inv_flags s wk' cl' : inv s -> length wk' = length (wks s) ->
  (forall k y, nth_error wk' k = Some y -> exists x, nth_error (wks s) k = Some x /\ (ws y = ws x \/ (dull (ws x) /\ dull (ws y)))) ->
  (forall t p, nth_error cl' t = Some p -> match p with PPush (d, k) => forall e, k = Some e -> e < length (exs s) | PIntr _ | PJoin => closed s = true | _ => True end) ->
  (forall c, In (EDestroy c) (hist s) -> In EDestroyed (hist s) \/ exists t p, nth_error cl' t = Some p /\ match p with PClose => True | PIntr _ | PJoin => closed s = true | _ => False end) ->
  inv (Sys (now s) (closed s) (pend s) (next s) wk' (exs s) (wraps s) cl' (dead s) (hist s)).
Proof.
  intros HI Hl Hw Hc Hd.
  assert (F : forall (f : wk -> list nat), (forall x y, ws y = ws x \/ (dull (ws x) /\ dull (ws y)) -> f x = f y) -> flat_map f wk' = flat_map f (wks s)).
  { intros f Hf. clear - Hf Hl Hw. revert wk' Hl Hw. generalize (wks s). induction l as [|a l IH]; intros [|b l'] Hl Hw; cbn in *; try discriminate; [reflexivity|]. f_equal.
    - destruct (Hw 0 b eq_refl) as (x & Hx & E). injection Hx as <-. symmetry. auto.
    - apply IH; [lia|]. intros k y Hy. exact (Hw (S k) y Hy). }
  assert (I : forall k y it, nth_error wk' k = Some y -> ws y = WCall it \/ ws y = WIn it -> exists x, nth_error (wks s) k = Some x /\ ws x = ws y).
  { intros k y it Hy E. destruct (Hw _ _ Hy) as (x & Hx & [G|(_ & G)]); [eauto|]. destruct G as [G|G], E as [E|E]; congruence. }
  constructor; cbn [now closed pend next wks exs wraps cls dead hist].
  - unfold ids. cbn. rewrite F; [exact (i_ids HI)|]. intros x y. unfold cid, dull. intros [->|([->| ->] & [->| ->])]; reflexivity.
  - rewrite F; [exact (i_rids HI)|]. intros x y. unfold rid, dull. intros [->|([->| ->] & [->| ->])]; reflexivity.
  - intros it H. apply (i_held HI). destruct H as [H|(k & y & Hy & E)]; [left; exact H|]. right. cbn in Hy. destruct (I _ _ _ Hy E) as (x & Hx & Ex). exists k, x. rewrite Ex. auto.
  - intros k y it Hy E. destruct (I _ _ _ Hy E) as (x & Hx & Ex). eapply (i_call HI); eauto. rewrite Ex. exact E.
  - intros k y it Hy E. destruct (I k y it Hy) as (x & Hx & Ex); [auto|]. apply (i_in HI _ (it:=it) Hx). congruence.
  - exact (i_lt HI).
  - exact (i_uniq HI).
  - intros i c H. destruct (i_run HI _ _ H) as (A & [B|[B|(k & x & it & Hx & E1 & E2)]]); auto. split; [exact A|]. right; right.
    destruct (nth_error wk' k) as [y|] eqn:Hy; [|exfalso; apply nth_error_None in Hy; assert (k < length (wks s)) by (apply nth_error_Some; congruence); lia].
    exists k, y, it. split; [exact Hy|]. split; [|exact E2]. destruct (Hw _ _ Hy) as (x' & Hx' & [G|(G & _)]); [congruence|]. assert (x' = x) by congruence. subst. destruct G; congruence.
  - exact (i_res HI).
  - exact (i_end HI).
  - exact (i_wr HI).
  - intros t d k e Ht Ek. exact (Hc _ _ Ht e Ek).
  - exact (i_cl HI).
  - exact (i_clt HI).
  - intros k y Hy E. destruct (Hw _ _ Hy) as (x & Hx & [G|(_ & [G|G])]); try congruence. eapply (i_gone HI); eauto. congruence.
  - exact Hd.
  - intros H k y Hy. destruct (Hw _ _ Hy) as (x & Hx & G). pose proof (i_dd HI H _ Hx) as E. destruct G as [G|([G|G] & _)]; congruence.
  - intros t p Ht. specialize (Hc _ _ Ht). destruct p; auto.
  - exact (i_dest HI).
  - exact (i_dead HI).
  - exact (i_term HI).
  - exact (i_x HI).
Qed.

Lemma inv_pull s k x j it : inv s -> nth_error (wks s) k = Some x -> ws x = WPoll -> nth_error (pend s) j = Some it -> (due it <= now s)%Z ->
  inv (Sys (now s) (closed s) (remove_nth (pend s) j) (next s) (modify (wks s) k (fun _ => Wk (WCall it) (flag x))) (exs s) (wraps s) (cls s) (dead s) (hist s)).
Proof.
  intros HI Hx Ew Hj Hdue.
  assert (ND : ~ In EDestroyed (hist s)) by (intros H; pose proof (i_dd HI H _ Hx); congruence).
  constructor; cbn [now closed pend next wks exs wraps cls dead hist].
  - unfold ids. cbn [pend wks hist]. destruct (fm_modify cid (wks s) k (Wk (WCall it) (flag x)) Hx) as (r & E1 & E2). rewrite (i_ids HI). unfold ids. rewrite (perm_remove _ _ Hj) at 1. rewrite E1, E2.
    unfold cid. rewrite Ew. cbn. apply Permutation_middle.
  - destruct (fm_modify rid (wks s) k (Wk (WCall it) (flag x)) Hx) as (r & E1 & E2). apply (Permutation_NoDup (Permutation_sym E2)). pose proof (i_rids HI) as N. rewrite E1 in N. unfold rid in *. rewrite Ew in N. exact N.
  - intros it' H. apply (i_held HI). destruct H as [H|(k' & x' & Hx' & H)]; [left; eapply in_remove; exact H|]. cbn [wks] in Hx'. mdn; [|right; eauto]. cbn in H. left. destruct H as [H|H]; [|discriminate]. injection H as <-. eapply nth_error_In; eauto.
  - intros k' x' it' Hx' H. mdn; [|exact (i_call HI _ Hx' H)]. cbn in H. destruct H as [H|H]; [|discriminate]. injection H as <-. exact Hdue.
  - intros k' x' it' Hx' H. mdn; [discriminate|]. exact (i_in HI _ Hx' H).
  - exact (i_lt HI).
  - exact (i_uniq HI).
  - intros i c H. destruct (i_run HI _ _ H) as (A & [B|[B|(k' & x' & it' & Hx' & E1 & E2)]]); auto. split; [exact A|]. right; right. exists k', x', it'. split; [|auto]. rewrite nth_modify.
    destruct (k' =? k) eqn:E; [apply Nat.eqb_eq in E; subst; congruence|exact Hx'].
  - exact (i_res HI).
  - exact (i_end HI).
  - exact (i_wr HI).
  - exact (i_pc HI).
  - exact (i_cl HI).
  - exact (i_clt HI).
  - intros k' x' Hx' E. mdn; [discriminate|]. destruct (i_gone HI _ Hx' E) as [A|[A|(A & B)]]; auto. right; right. split; [exact A|]. intros it' H. apply B. eapply in_remove; exact H.
  - exact (i_des HI).
  - intros H. contradiction.
  - exact (i_jn HI).
  - intros H. contradiction.
  - exact (i_dead HI).
  - exact (i_term HI).
  - exact (i_x HI).
Qed.

Lemma inv_resub s k x it e : inv s -> nth_error (wks s) k = Some x -> ws x = WCall it -> on it = Some e ->
  inv (Sys (now s) (closed s) (pend s) (next s) (modify (wks s) k (fun _ => Wk WPoll (flag x))) (modify (exs s) e (fun y => Ex (xcl y) (xgot y ++ [iid it]))) (wraps s) (cls s) (dead s) (EResub (iid it) e (now s) :: hist s)).
Proof.
  intros HI Hx Ew Eo.
  assert (ND : ~ In EDestroyed (hist s)) by (intros H; pose proof (i_dd HI H _ Hx); congruence).
  assert (Hs : In (ESub (iid it) (due it) (Some e)) (hist s)) by (rewrite <- Eo; apply (i_held HI); right; eauto).
  constructor; cbn [now closed pend next wks exs wraps cls dead hist]; rewrite ?modify_length.
  - unfold ids. cbn [pend wks hist]. destruct (fm_modify cid (wks s) k (Wk WPoll (flag x)) Hx) as (r & E1 & E2). rewrite (i_ids HI). unfold ids. apply Permutation_app_head. rewrite E1, E2.
    unfold cid. rewrite Ew. cbn. apply Permutation_middle.
  - destruct (fm_modify rid (wks s) k (Wk WPoll (flag x)) Hx) as (r & E1 & E2). apply (Permutation_NoDup (Permutation_sym E2)). pose proof (i_rids HI) as N. rewrite E1 in N. unfold rid in *. rewrite Ew in N. exact N.
  - intros it' H. right. apply (i_held HI). destruct H as [H|(k' & x' & Hx' & H)]; [left; exact H|]. cbn [wks] in Hx'. mdn; [|right; eauto]. destruct H; discriminate.
  - intros k' x' it' Hx' H. mdn; [destruct H; discriminate|]. exact (i_call HI _ Hx' H).
  - intros k' x' it' Hx' H. mdn; [discriminate|]. destruct (i_in HI _ Hx' H) as (A & (c & B) & C & D). split; [exact A|]. split; [exists c; right; auto|]. split; intros [F|F]; try discriminate; auto.
  - intros i d o [H|H]; [discriminate|]. exact (i_lt HI _ _ _ H).
  - intros i d o d' o' [H|H] [H'|H']; try discriminate. exact (i_uniq HI _ _ _ _ _ H H').
  - intros i c [H|H]; [discriminate|]. destruct (i_run HI _ _ H) as ((d & A & A') & B). split; [exists d; split; [right|]; auto|]. destruct B as [B|[B|(k' & x' & it' & Hx' & E1 & E2)]]; [left; right; auto|right; left; right; auto|].
    right; right. exists k', x', it'. split; [|auto]. rewrite nth_modify. destruct (k' =? k) eqn:E; [apply Nat.eqb_eq in E; subst; congruence|exact Hx'].
  - intros i e' c [H|H].
    + injection H as <- <- <-. exists (due it). split; [right; exact Hs|]. apply (i_call HI _ Hx). auto.
    + destruct (i_res HI _ _ _ H) as (d & A & B). exists d. split; [right|]; auto.
  - intros i H. destruct (i_end HI i) as (c & A); [destruct H as [[H|H]|[H|H]]; try discriminate; auto|]. exists c. right. exact A.
  - intros w v Hv. destruct (i_wr HI _ Hv) as (A & B). split; [exact A|]. intros; right; auto.
  - exact (i_pc HI).
  - split; [intros H; apply (i_cl HI) in H as (c & H); exists c; right; auto|intros (c & [H|H]); [discriminate|]; apply (i_cl HI); eauto].
  - intros c [H|H]; [discriminate|]. exact (i_clt HI _ H).
  - intros k' x' Hx' E. mdn; [discriminate|]. destruct (i_gone HI _ Hx' E) as [A|[(i & A)|(A & B)]]; [left; right; auto|right; left; exists i; right; auto|]. right; right. split; [exact A|]. intros it' H. destruct (B _ H) as (c & C & D). exists c. split; [right|]; auto.
  - intros c [H|H]; [discriminate|]. destruct (i_des HI _ H) as [A|A]; [left; right|right]; auto.
  - intros [H|H]; [discriminate|contradiction].
  - exact (i_jn HI).
  - intros [H|H]; [discriminate|contradiction].
  - split; [intros H; apply (i_dead HI) in H as (i & H); exists i; right; auto|intros (i & [H|H]); [discriminate|]; apply (i_dead HI); exists i; auto].
  - intros i [H|H]; [discriminate|]. destruct (i_term HI _ H) as [A|(d & e' & A & B)]; [left; right; auto|]. right. exists d, e'. split; right; auto.
  - intros e' y' Hy'. unfold given. cbn [flat_map]. destruct (e =? e') eqn:E.
    + apply Nat.eqb_eq in E. subst e'. apply nth_mod in Hy' as [(_ & y & Hy & ->)|(Hne & _)]; [|congruence]. destruct (i_x HI _ Hy) as (A & B). cbn. rewrite A. split; [reflexivity|]. intros; right; auto.
    + apply nth_mod in Hy' as [(-> & _)|(_ & Hy)]; [rewrite Nat.eqb_refl in E; discriminate|]. destruct (i_x HI _ Hy) as (A & B). cbn. split; [exact A|]. intros; right; auto.
Qed.

Lemma inv_dead s i es : inv s -> es = [] \/ es = [EThrew i] ->
  (In (EThrew i) es \/ exists d e, In (ESub i d (Some e)) (hist s) /\ In (ECloseE e) (hist s)) ->
  inv (Sys (now s) (closed s) (pend s) (next s) (wks s) (exs s) (wraps s) (cls s) true (ETerm i :: es ++ hist s)).
Proof.
  intros HI Hes Hr.
  assert (R : forall e, In e (hist s) -> In e (ETerm i :: es ++ hist s)) by (intros; right; apply in_or_app; auto).
  assert (L : forall e, match e with ETerm _ | EThrew _ => False | _ => True end -> In e (ETerm i :: es ++ hist s) -> In e (hist s)).
  { intros e He [<-|H]; [contradiction|]. apply in_app_or in H as [H|H]; [|exact H]. destruct Hes as [-> | ->]; [destruct H|destruct H as [<-|[]]; contradiction]. }
  assert (B0 : flat_map bid (ETerm i :: es ++ hist s) = flat_map bid (hist s)) by (destruct Hes as [-> | ->]; reflexivity).
  assert (G0 : forall e, given e (ETerm i :: es ++ hist s) = given e (hist s)) by (destruct Hes as [-> | ->]; reflexivity).
  constructor; cbn [now closed pend next wks exs wraps cls dead hist].
  - unfold ids. cbn [pend wks hist]. rewrite B0. exact (i_ids HI).
  - exact (i_rids HI).
  - intros it H. apply R, (i_held HI). exact H.
  - exact (i_call HI).
  - intros k x it Hx E. destruct (i_in HI _ Hx E) as (A & (c & B) & C & D). split; [exact A|]. split; [eauto|]. split; intros H; [apply C|apply D]; apply L; cbn; auto.
  - intros i' d k H. apply L in H; [|exact I]. exact (i_lt HI _ _ _ H).
  - intros i' d k d' k' H H'. apply L in H; [|exact I]. apply L in H'; [|exact I]. exact (i_uniq HI _ _ _ _ _ H H').
  - intros i' c H. apply L in H; [|exact I]. destruct (i_run HI _ _ H) as ((d & A & B) & C). split; [eauto|]. destruct C as [C|[C|C]]; auto.
  - intros i' e c H. apply L in H; [|exact I]. destruct (i_res HI _ _ _ H) as (d & A & B). eauto.
  - intros i' H. destruct (i_end HI i') as (c & A); [destruct H as [H|H]; apply L in H; auto; exact I|eauto].
  - intros w v Hv. destruct (i_wr HI _ Hv) as (A & B). split; auto.
  - exact (i_pc HI).
  - split; [intros H; apply (i_cl HI) in H as (c & H); eauto|intros (c & H); apply (i_cl HI); exists c; apply L; cbn; auto].
  - intros c H. apply (i_clt HI). apply L; cbn; auto.
  - intros k x Hx E. destruct (i_gone HI _ Hx E) as [A|[(i' & A)|(A & B)]]; [auto|eauto|]. right; right. split; [exact A|]. intros it Hin. destruct (B _ Hin) as (c & C & D). eauto.
  - intros c H. apply L in H; [|exact I]. destruct (i_des HI _ H) as [A|A]; auto.
  - intros H. apply (i_dd HI). apply L; cbn; auto.
  - exact (i_jn HI).
  - intros H. apply (i_dest HI). apply L; cbn; auto.
  - split; [intros _; exists i; left; reflexivity|auto].
  - intros i' [H|H].
    + injection H as <-. destruct Hr as [A|(d & e & A & B)]; [left; right; apply in_or_app; auto|right; eauto 10].
    + assert (H' : In (ETerm i') (hist s)). { apply in_app_or in H as [H|H]; [|exact H]. destruct Hes as [-> | ->]; [destruct H|destruct H as [H|[]]; discriminate]. }
      destruct (i_term HI _ H') as [A|(d & e & A & B)]; [auto|right; eauto 10].
  - intros e y Hy. rewrite G0. destruct (i_x HI _ Hy) as (A & B). auto.
Qed.

Lemma inv_push s t d o : inv s -> closed s = false -> nth_error (cls s) t = Some (PPush (d, o)) ->
  inv (Sys (now s) (closed s) (pend s ++ [It (next s) d o]) (S (next s)) (wks s) (exs s) (wraps s) (modify (cls s) t (fun _ => PIdle)) (dead s) (ESub (next s) d o :: hist s)).
Proof.
  intros HI Hc Ht. constructor; cbn [now closed pend next wks exs wraps cls dead hist].
  - unfold ids. cbn [pend wks hist]. rewrite seq_S, map_app. cbn. rewrite (i_ids HI). unfold ids. rewrite <- !app_assoc. apply Permutation_app_head. rewrite app_assoc. apply Permutation_app_comm.
  - exact (i_rids HI).
  - intros it H. destruct H as [H|H]; [|right; apply (i_held HI); right; exact H]. cbn in H. apply in_app_or in H as [H|[<-|[]]]; [right; apply (i_held HI); left; exact H|left; reflexivity].
  - exact (i_call HI).
  - intros k x it Hx E. destruct (i_in HI _ Hx E) as (A & (c & B) & C & D). split; [exact A|]. split; [exists c; right; auto|]. split; intros [F|F]; try discriminate; auto.
  - intros i d' k [H|H]; [injection H as <- <- <-; split; [lia|]; intros e Ek; exact (i_pc HI _ Ht Ek)|]. destruct (i_lt HI _ _ _ H) as (A & B). split; [lia|exact B].
  - intros i d1 k1 d2 k2 [H|H] [H'|H']; try (destruct (i_lt HI _ _ _ H); lia).
    + injection H as <- <- <-. injection H' as <- <-. auto.
    + injection H as <- <- <-. destruct (i_lt HI _ _ _ H'). lia.
    + injection H' as <- <- <-. destruct (i_lt HI _ _ _ H). lia.
    + exact (i_uniq HI _ _ _ _ _ H H').
  - intros i c [H|H]; [discriminate|]. destruct (i_run HI _ _ H) as ((d' & A & B) & C). split; [exists d'; split; [right|]; auto|]. destruct C as [C|[C|C]]; [left; right|right; left; right|right; right]; auto.
  - intros i e c [H|H]; [discriminate|]. destruct (i_res HI _ _ _ H) as (d' & A & B). exists d'; split; [right|]; auto.
  - intros i H. destruct (i_end HI i) as (c & A); [destruct H as [[H|H]|[H|H]]; try discriminate; auto|]. exists c. right. exact A.
  - intros w y Hy. destruct (i_wr HI _ Hy) as (A & B). split; [exact A|]. intros; right; auto.
  - intros t' d' k e Ht' Ek. mdn. exact (i_pc HI _ Ht' Ek).
  - split; [intros H; apply (i_cl HI) in H as (c & H); exists c; right; auto|intros (c & [H|H]); [discriminate|]; apply (i_cl HI); eauto].
  - intros c [H|H]; [discriminate|]. exact (i_clt HI _ H).
  - intros k x Hx E. destruct (i_gone HI _ Hx E) as [A|[(i & A)|(A & B)]]; [left; right; auto|right; left; exists i; right; auto|congruence].
  - intros c [H|H]; [discriminate|]. destruct (i_des HI _ H) as [A|(t' & p & A & B)]; [left; right; auto|]. right. exists t', p. split; [|exact B]. rewrite nth_modify. destruct (t' =? t) eqn:E; [apply Nat.eqb_eq in E; subst; assert (p = PPush (d, o)) by congruence; subst; contradiction|exact A].
  - intros [H|H]; [discriminate|]. exact (i_dd HI H).
  - intros t' p Ht'. mdn; [exact I|]. exact (i_jn HI _ Ht').
  - intros [H|H]; [discriminate|]. exact (i_dest HI H).
  - split; [intros H; apply (i_dead HI) in H as (i & H); exists i; right; auto|intros (i & [H|H]); [discriminate|]; apply (i_dead HI); exists i; auto].
  - intros i [H|H]; [discriminate|]. destruct (i_term HI _ H) as [A|(d' & e & A & B)]; [left; right; auto|]. right. exists d', e. split; right; auto.
  - intros e y Hy. destruct (i_x HI _ Hy) as (A & B). split; [exact A|]. intros; right; auto.
Qed.

Lemma inv_closeE s e : inv s ->
  inv (Sys (now s) (closed s) (pend s) (next s) (wks s) (modify (exs s) e (fun y => Ex true (xgot y))) (wraps s) (cls s) (dead s) (ECloseE e :: hist s)).
Proof.
  intros HI. constructor; cbn [now closed pend next wks exs wraps cls dead hist]; rewrite ?modify_length.
  - unfold ids. cbn. exact (i_ids HI).
  - exact (i_rids HI).
  - intros it H. right. apply (i_held HI). exact H.
  - exact (i_call HI).
  - intros k x it Hx E. destruct (i_in HI _ Hx E) as (A & (c & B) & C & D). split; [exact A|]. split; [exists c; right; auto|]. split; intros [H|H]; [discriminate|auto|discriminate|auto].
  - intros i d k [H|H]; [discriminate|]. exact (i_lt HI _ _ _ H).
  - intros i d k d' k' [H|H] [H'|H']; try discriminate. exact (i_uniq HI _ _ _ _ _ H H').
  - intros i c [H|H]; [discriminate|]. destruct (i_run HI _ _ H) as ((d & A & B) & C). split; [exists d; split; [right|]; auto|]. destruct C as [C|[C|C]]; [left; right|right; left; right|right; right]; auto.
  - intros i e' c [H|H]; [discriminate|]. destruct (i_res HI _ _ _ H) as (d & A & B). exists d; split; [right|]; auto.
  - intros i H. destruct (i_end HI i) as (c & A); [destruct H as [[H|H]|[H|H]]; try discriminate; auto|]. exists c. right. exact A.
  - intros w y Hy. destruct (i_wr HI _ Hy) as (A & B). split; [exact A|]. intros; right; auto.
  - exact (i_pc HI).
  - split; [intros H; apply (i_cl HI) in H as (c & H); exists c; right; auto|intros (c & [H|H]); [discriminate|]; apply (i_cl HI); eauto].
  - intros c [H|H]; [discriminate|]. exact (i_clt HI _ H).
  - intros k x Hx E. destruct (i_gone HI _ Hx E) as [A|[(i & A)|(A & B)]]; [left; right; auto|right; left; exists i; right; auto|]. right; right. split; [exact A|]. intros it H. destruct (B _ H) as (c & C & D). exists c. split; [right|]; auto.
  - intros c [H|H]; [discriminate|]. destruct (i_des HI _ H) as [A|A]; [left; right|right]; auto.
  - intros [H|H]; [discriminate|]. exact (i_dd HI H).
  - exact (i_jn HI).
  - intros [H|H]; [discriminate|]. exact (i_dest HI H).
  - split; [intros H; apply (i_dead HI) in H as (i & H); exists i; right; auto|intros (i & [H|H]); [discriminate|]; apply (i_dead HI); exists i; auto].
  - intros i [H|H]; [discriminate|]. destruct (i_term HI _ H) as [A|(d & e' & A & B)]; [left; right; auto|]. right. exists d, e'. split; right; auto.
  - intros e' y' Hy'. mdn; cbn.
    + destruct (i_x HI _ Hy) as (A & B). split; [exact A|]. intros; left; reflexivity.
    + destruct (i_x HI _ Hy') as (A & B). split; [exact A|]. intros; right; auto.
Qed.

Lemma inv_tick s d : inv s -> inv (Sys (now s + Z.of_nat d) (closed s) (pend s) (next s) (wks s) (exs s) (wraps s) (cls s) (dead s) (hist s)).
Proof.
  intros HI. destruct HI as [A1 A2 A3 A4 A5 A6 A7 A8 A9 A10 A11 A12 A13 A14 A15 A16 A17 A18 A19 A20 A21 A22]. constructor; cbn [now closed pend next wks exs wraps cls dead hist]; auto.
  - intros k x it Hx H. specialize (A4 _ _ _ Hx H). lia.
  - intros c H. specialize (A14 _ H). lia.
Qed.
Lemma inv_destroyed s t : inv s -> nth_error (cls s) t = Some PJoin -> forallb gone (wks s) = true -> inv (set_c s t PIdle [EDestroyed]).
Proof.
  intros HI Ht Hg. assert (G : forall k x, nth_error (wks s) k = Some x -> ws x = WGone).
  { intros k x Hx. rewrite forallb_forall in Hg. specialize (Hg _ (nth_error_In _ _ Hx)). unfold gone in Hg. destruct (ws x); congruence. }
  unfold set_c. cbn [app]. constructor; cbn [now closed pend next wks exs wraps cls dead hist].
  - unfold ids. cbn. exact (i_ids HI).
  - exact (i_rids HI).
  - intros it H. right. apply (i_held HI). exact H.
  - exact (i_call HI).
  - intros k x it Hx E. rewrite (G _ _ Hx) in E. discriminate.
  - intros i d k [H|H]; [discriminate|]. exact (i_lt HI _ _ _ H).
  - intros i d k d' k' [H|H] [H'|H']; try discriminate. exact (i_uniq HI _ _ _ _ _ H H').
  - intros i c [H|H]; [discriminate|]. destruct (i_run HI _ _ H) as ((d & A & B) & C). split; [exists d; split; [right|]; auto|]. destruct C as [C|[C|C]]; [left; right|right; left; right|right; right]; auto.
  - intros i e' c [H|H]; [discriminate|]. destruct (i_res HI _ _ _ H) as (d & A & B). exists d; split; [right|]; auto.
  - intros i H. destruct (i_end HI i) as (c & A); [destruct H as [[H|H]|[H|H]]; try discriminate; auto|]. exists c. right. exact A.
  - intros w y Hy. destruct (i_wr HI _ Hy) as (A & B). split; [exact A|]. intros; right; auto.
  - intros t' d' k e Ht' Ek. mdn. exact (i_pc HI _ Ht' Ek).
  - split; [intros H; apply (i_cl HI) in H as (c & H); exists c; right; auto|intros (c & [H|H]); [discriminate|]; apply (i_cl HI); eauto].
  - intros c [H|H]; [discriminate|]. exact (i_clt HI _ H).
  - intros k x Hx E. destruct (i_gone HI _ Hx E) as [A|[(i & A)|(A & B)]]; [left; right; auto|right; left; exists i; right; auto|]. right; right. split; [exact A|]. intros it H. destruct (B _ H) as (c & C & D). exists c. split; [right|]; auto.
  - intros c _. left; left; reflexivity.
  - intros _. exact G.
  - intros t' p Ht'. mdn; [exact I|]. exact (i_jn HI _ Ht').
  - intros _. exact (i_jn HI _ Ht).
  - split; [intros H; apply (i_dead HI) in H as (i & H); exists i; right; auto|intros (i & [H|H]); [discriminate|]; apply (i_dead HI); exists i; auto].
  - intros i [H|H]; [discriminate|]. destruct (i_term HI _ H) as [A|(d & e' & A & B)]; [left; right; auto|]. right. exists d, e'. split; right; auto.
  - intros e y Hy. destruct (i_x HI _ Hy) as (A & B). split; [exact A|]. intros; right; auto.
Qed.

Definition pc_ok (s : sys) (p : pc) : Prop := match p with PPush (_, k) => forall e, k = Some e -> e < length (exs s) | PIntr _ | PJoin => closed s = true | _ => True end.
Definition destroying (p : pc) : Prop := match p with PClose | PIntr _ | PJoin => True | _ => False end.
Lemma cls_ok s t p : inv s -> pc_ok s p -> forall t' q, nth_error (modify (cls s) t (fun _ => p)) t' = Some q -> pc_ok s q.
Proof.
  intros HI Hp t' q Hq. apply nth_mod in Hq as [(_ & y & _ & ->)|(_ & Hq)]; [exact Hp|]. pose proof (i_jn HI _ Hq) as A. destruct q as [| | |[d k]| | |]; cbn; auto. intros e. exact (i_pc HI _ Hq).
Qed.
Lemma inv_pc s t p q es : inv s -> nth_error (cls s) t = Some q -> Forall quiet es -> pc_ok s p ->
  (destroying p \/ (~ destroying q /\ forall c, ~ In (EDestroy c) es)) -> inv (set_c s t p es).
Proof.
  intros HI Ht Hq Hp Hd. apply inv_quiet; auto.
  - intros w y Hy. destruct (i_wr HI _ Hy) as (A & B). split; [exact A|]. intros; apply in_or_app; auto.
  - intros t' q' Hq'. exact (cls_ok t _ HI Hp _ Hq').
  - intros c H. destruct Hd as [Hd|(Hd & Hn)].
    + right. exists t, p. split; [rewrite nth_modify, Nat.eqb_refl, Ht; reflexivity|]. destruct p; auto; exact Hp.
    + apply in_app_or in H as [H|H]; [destruct (Hn _ H)|]. destruct (i_des HI _ H) as [A|(t' & p' & A & B)]; [auto|]. right. exists t', p'. split; [|exact B]. rewrite nth_modify. destruct (t' =? t) eqn:E; [|exact A].
      exfalso. apply Nat.eqb_eq in E. subst t'. assert (p' = q) by congruence. subst. apply Hd. destruct q; cbn; auto.
Qed.
Lemma set_c_nil s t p : set_c s t p [] = Sys (now s) (closed s) (pend s) (next s) (wks s) (exs s) (wraps s) (modify (cls s) t (fun _ => p)) (dead s) (hist s).
Proof. reflexivity. Qed.

Ltac pcs := auto; try exact I; try (repeat constructor; fail); try (cbn; congruence); try (left; exact I); try (right; split; [exact (fun H => H)|]; intros c [H|[]]; discriminate); try (right; split; [exact (fun H => H)|]; intros c []).
Lemma inv_step s l s' : inv s -> exec s l = Some s' -> inv s'.
Proof.
  intros HI He. unfold exec in He. destruct (dead s) eqn:Hdead; [discriminate|].
  assert (HW : forall es w y, nth_error (wraps s) w = Some y -> (forall e, won y = Some e -> e < length (exs s)) /\ (wcl y = true -> In EWClose (es ++ hist s))).
  { intros es w y Hy. destruct (i_wr HI _ Hy) as (A & B). split; [exact A|]. intros; apply in_or_app; auto. }
  assert (HC : forall t q, nth_error (cls s) t = Some q -> pc_ok s q).
  { intros t q Hq. pose proof (i_jn HI _ Hq) as A. destruct q as [| | |[d k]| | |]; cbn; auto. intros e. exact (i_pc HI _ Hq). }
  assert (HA : forall y0, (forall e, won y0 = Some e -> e < length (exs s)) -> wcl y0 = false -> forall w y, nth_error (wraps s ++ [y0]) w = Some y -> (forall e, won y = Some e -> e < length (exs s)) /\ (wcl y = true -> In EWClose ([] ++ hist s))).
  { intros y0 H1 H2 w y Hy. destruct (nth_error (wraps s) w) as [y'|] eqn:E.
    - rewrite nth_error_app1 in Hy by (apply nth_error_Some; congruence). exact (HW [] _ _ Hy).
    - apply nth_error_None in E. rewrite nth_error_app2 in Hy by lia. destruct (w - length (wraps s)) as [|m]; [cbn in Hy; injection Hy as <-; split; [exact H1|congruence]|destruct m; discriminate]. }
  destruct l as [t o|t|k j|k|k a|d].
  - destruct (nth_error (cls s) t) as [p|] eqn:Ht; [|discriminate]. destruct p; try discriminate. destruct o as [tp|e tp|tp|w|w| |e|]; cbn [call] in He.
    + injection He as <-. apply (@inv_quiet s _ (cls s) []); [exact HI|constructor| |exact HC|exact (i_des HI)].
      apply (HA (Wr None tp false)); [cbn; congruence|reflexivity].
    + destruct (e <? length (exs s)) eqn:El; [|discriminate]. apply Nat.ltb_lt in El. injection He as <-. apply (@inv_quiet s _ (cls s) []); [exact HI|constructor| |exact HC|exact (i_des HI)].
      apply (HA (Wr (Some e) tp false)); [cbn; congruence|reflexivity].
    + injection He as <-. apply (@inv_pc s t _ PIdle []); pcs.
    + destruct (nth_error (wraps s) w) as [y|] eqn:Hy; [|discriminate]. destruct (wcl y); injection He as <-.
      * apply (@inv_pc s t _ PIdle [ERej]); pcs.
      * apply (@inv_pc s t _ PIdle []); pcs.
    + injection He as <-. apply (@inv_quiet s _ (cls s) [EWClose]); auto; try (repeat constructor; fail).
      * intros w' y' Hy'. mdn.
        -- cbn. split; [exact (proj1 (i_wr HI _ Hy))|auto].
        -- exact (HW [EWClose] _ _ Hy').
      * intros c [H|H]; [discriminate|]. exact (i_des HI _ H).
    + injection He as <-. apply inv_close; auto.
      * intros t' p Hp. specialize (HC _ _ Hp). destruct p as [| | |[d k]| | |]; auto.
      * intros c H. destruct (i_des HI _ H) as [A|(t' & p & A & B)]; [auto|]. right. exists t', p. split; [auto|destruct p; auto].
    + injection He as <-. apply inv_closeE; auto.
    + destruct (started (hist s)); [discriminate|]. injection He as <-. apply (@inv_pc s t _ PIdle [EDestroy (now s)]); pcs.
  - destruct (nth_error (cls s) t) as [p|] eqn:Ht; [|discriminate]. destruct p as [|w|w|[d k]| |k|]; cbn [crun] in He.
    + discriminate.
    + destruct (nth_error (wraps s) w) as [y|] eqn:Hy; [|discriminate]. destruct (closed s).
      * injection He as <-. apply (@inv_pc s t _ (PSch w) [ERej]); pcs.
      * destruct (won y) as [e|]; injection He as <-; apply (@inv_pc s t _ (PSch w) []); pcs.
    + destruct (nth_error (wraps s) w) as [y|] eqn:Hy; [|discriminate]. destruct (won y) as [e|] eqn:Ey; [|discriminate]. destruct (nth_error (exs s) e) as [z|] eqn:Hz; [|discriminate]. destruct (xcl z); injection He as <-.
      * apply (@inv_pc s t _ (PEx w) [ERej]); pcs.
      * apply (@inv_pc s t _ (PEx w) []); pcs. cbn. intros e' E'. injection E' as <-. exact (proj1 (i_wr HI _ Hy) _ Ey).
    + destruct (closed s) eqn:Hcl; injection He as <-.
      * apply (@inv_pc s t _ (PPush (d, k)) [ERej]); pcs.
      * rewrite <- Hcl. apply inv_push; auto.
    + injection He as <-. apply inv_close; auto.
      * intros t' p Hp. apply nth_mod in Hp as [(_ & y & _ & ->)|(_ & Hp)]; [exact I|]. specialize (HC _ _ Hp). destruct p as [| | |[d k]| | |]; auto.
      * intros c H. right. exists t, (PIntr 0). split; [rewrite nth_modify, Nat.eqb_refl, Ht; reflexivity|exact I].
    + pose proof (i_jn HI _ Ht) as Hcl. cbn in Hcl. destruct (k <? length (wks s)); injection He as <-.
      * apply inv_flags; auto.
        -- apply modify_length.
        -- intros k' y Hy. apply nth_mod in Hy as [(-> & x & Hx & ->)|(_ & Hy)]; [exists x; cbn; auto|eauto].
        -- intros t' q Hq. assert (Hp : pc_ok s (PIntr (S k))) by exact Hcl. exact (cls_ok t _ HI Hp _ Hq).
        -- intros c H. right. exists t, (PIntr (S k)). split; [rewrite nth_modify, Nat.eqb_refl, Ht; reflexivity|exact Hcl].
      * apply (@inv_pc s t _ (PIntr k) []); pcs.
    + destruct (forallb gone (wks s)) eqn:Hg; [|discriminate]. injection He as <-. apply inv_destroyed; auto.
  - destruct (nth_error (wks s) k) as [x|] eqn:Hx; [|discriminate]. unfold pull in He. destruct (ws x) eqn:Ew; try discriminate. destruct (nth_error (pend s) j) as [it|] eqn:Hj; [|discriminate].
    destruct (due it <=? now s)%Z eqn:Hd; [|discriminate]. cbn in He. destruct (forallb _ (pend s)); [|discriminate]. injection He as <-. apply inv_pull; auto. apply Z.leb_le. exact Hd.
  - destruct (nth_error (wks s) k) as [x|] eqn:Hx; [|discriminate]. unfold wrun in He. destruct (ws x) as [| |it|it|] eqn:Ew; try discriminate.
    + destruct (is_due s) eqn:Hdue; [discriminate|]. destruct (closed s) eqn:Hcl; [|destruct (flag x)]; injection He as <-.
      * apply (@inv_w s k x); auto; cbn; try (unfold cid; rewrite Ew; cbn; auto; fail); try (intros; congruence); try (intros it [E|E]; discriminate); try (intros i [[]|[]]); try (intros i c []).
        intros _. right; right. split; [exact Hcl|]. intros it Hin. destruct (proj1 (i_cl HI) Hcl) as (c & Hc). exists c. split; [exact Hc|]. pose proof (i_clt HI _ Hc).
        unfold is_due in Hdue. destruct (due it <=? now s)%Z eqn:E; [|apply Z.leb_gt in E; lia]. exfalso. assert (existsb (fun x => (due x <=? now s)%Z) (pend s) = true) by (apply existsb_exists; eauto). congruence.
      * apply (@inv_w s k x _ [EThrown]); auto; cbn; try (unfold cid; rewrite Ew; cbn; auto; fail); try (intros; congruence); try (intros it [E|E]; discriminate); try (intros i [[E|[]]|[E|[]]]; discriminate); try (intros i c [E|[]]; discriminate); try (repeat constructor; fail); auto.
      * change (set_w s k (Wk WSleep false) []) with (Sys (now s) (closed s) (pend s) (next s) (modify (wks s) k (fun _ => Wk WSleep false)) (exs s) (wraps s) (cls s) (dead s) (hist s)). apply inv_flags; auto.
        -- apply modify_length.
        -- intros k' y Hy. apply nth_mod in Hy as [(-> & z & Hz & ->)|(_ & Hy)]; [exists z; assert (z = x) by congruence; subst z; unfold dull; cbn; auto|eauto].
        -- exact (i_des HI).
    + destruct (flag x).
      * injection He as <-. apply (@inv_w s k x _ [EThrown]); auto; cbn; try (unfold cid; rewrite Ew; cbn; auto; fail); try (intros; congruence); try (intros it [E|E]; discriminate); try (intros i [[E|[]]|[E|[]]]; discriminate); try (intros i c [E|[]]; discriminate); try (repeat constructor; fail); auto.
      * destruct (is_due s || closed s); [|discriminate]. injection He as <-.
        change (set_w s k (Wk WPoll false) []) with (Sys (now s) (closed s) (pend s) (next s) (modify (wks s) k (fun _ => Wk WPoll false)) (exs s) (wraps s) (cls s) (dead s) (hist s)). apply inv_flags; auto.
        -- apply modify_length.
        -- intros k' y Hy. apply nth_mod in Hy as [(-> & z & Hz & ->)|(_ & Hy)]; [exists z; assert (z = x) by congruence; subst z; unfold dull; cbn; auto|eauto].
        -- exact (i_des HI).
    + assert (Hs : In (ESub (iid it) (due it) (on it)) (hist s)) by (apply (i_held HI); right; eauto).
      destruct (on it) as [e|] eqn:Eo.
      * destruct (nth_error (exs s) e) as [y|] eqn:Hy; [|discriminate]. destruct (xcl y) eqn:Ex; injection He as <-.
        -- apply (@inv_dead s (iid it) []); auto. right. exists (due it), e. split; [exact Hs|]. exact (proj2 (i_x HI _ Hy) Ex).
        -- apply inv_resub; auto.
      * injection He as <-.
        assert (Hni : ~ In (iid it) (flat_map bid (hist s))).
        { pose proof (Permutation_NoDup (i_ids HI) (seq_NoDup _ _)) as N. unfold ids in N. intros H. destruct (fm_modify cid (wks s) k x Hx) as (r & E1 & _). rewrite E1 in N. unfold cid in N at 1. rewrite Ew in N. cbn in N.
          apply NoDup_remove_2 in N. apply N. apply in_or_app. right. apply in_or_app. auto. }
        assert (Hnr : forall c, ~ In (ERun (iid it) c) (hist s)) by (intros c H; apply Hni, in_flat_map; exists (ERun (iid it) c); split; [exact H|left; reflexivity]).
        assert (Hne : ~ (In (EEnd (iid it)) (hist s) \/ In (EEscape (iid it)) (hist s))) by (intros H; destruct (i_end HI _ H) as (c & A); exact (Hnr _ A)).
        apply (@inv_w s k x _ [ERun (iid it) (now s)]); auto; cbn.
        -- repeat constructor.
        -- congruence.
        -- intros it' [E|E]; [discriminate|]. injection E as <-. auto.
        -- unfold cid. rewrite Ew. reflexivity.
        -- right; right. exists (iid it). split; [reflexivity|]. intros (c & H). exact (Hnr _ H).
        -- intros it' E. injection E as <-. split; [exact Eo|]. split; [eauto|]. split; intros [F|F]; try discriminate; apply Hne; auto.
        -- intros i [[F|[]]|[F|[]]]; discriminate.
        -- intros i c [F|[]]. injection F as <- <-. split; [exists (due it); split; [exact Hs|exact (i_call HI _ Hx (or_introl Ew))]|eauto].
        -- intros it' E. congruence.
        -- discriminate.
  - destruct (nth_error (wks s) k) as [x|] eqn:Hx; [|discriminate]. unfold wact in He. destruct (ws x) as [| |it|it|] eqn:Ew; try discriminate. destruct a as [| |b].
    + injection He as <-. apply (@inv_w s k x _ [EEnd (iid it)]); auto; cbn.
      * repeat constructor.
      * congruence.
      * intros it' [E|E]; discriminate.
      * unfold cid. rewrite Ew. reflexivity.
      * discriminate.
      * intros i [[F|[]]|[F|[]]]; [|discriminate]. injection F as <-. eauto.
      * intros i c [F|[]]. discriminate.
      * intros it' E. assert (it' = it) by congruence. subst. auto.
      * discriminate.
    + injection He as <-. apply (@inv_dead s (iid it) [EThrew (iid it)]); auto. left. left. reflexivity.
    + destruct (flag x); [|discriminate]. injection He as <-. destruct b.
      * change (set_w s k (Wk (WIn it) false) []) with (Sys (now s) (closed s) (pend s) (next s) (modify (wks s) k (fun _ => Wk (WIn it) false)) (exs s) (wraps s) (cls s) (dead s) (hist s)). apply inv_flags; auto.
        -- apply modify_length.
        -- intros k' y Hy. apply nth_mod in Hy as [(-> & z & Hz & ->)|(_ & Hy)]; [exists z; assert (z = x) by congruence; subst z; cbn; auto|eauto].
        -- exact (i_des HI).
      * apply (@inv_w s k x _ [EEscape (iid it)]); auto; cbn.
        -- repeat constructor.
        -- congruence.
        -- intros it' [E|E]; discriminate.
        -- unfold cid. rewrite Ew. reflexivity.
        -- discriminate.
        -- intros i [[F|[]]|[F|[]]]; [discriminate|]. injection F as <-. eauto.
        -- intros i c [F|[]]. discriminate.
        -- intros it' E. assert (it' = it) by congruence. subst. auto.
        -- intros _. right; left. eauto.
  - injection He as <-. rewrite <- Hdead. apply inv_tick. exact HI.
Qed.
Lemma fm_repeat A B (f : A -> list B) a n : f a = [] -> flat_map f (repeat a n) = [].
Proof. intros H. induction n as [|n IH]; cbn; [reflexivity|]. rewrite H, IH. reflexivity. Qed.
Lemma nth_repeat A (a : A) n k x : nth_error (repeat a n) k = Some x -> x = a.
Proof. intros H. apply nth_error_In, repeat_spec in H. exact H. Qed.
Lemma inv_init n m c z : inv (init n m c z).
Proof.
  unfold init. constructor; cbn [now closed pend next wks exs wraps cls dead hist]; try (intros; contradiction); try (intros; congruence).
  - unfold ids. cbn. rewrite fm_repeat by reflexivity. cbn. auto.
  - rewrite fm_repeat by reflexivity. constructor.
  - intros it [[]|(k & x & Hx & H)]. cbn in Hx. apply nth_repeat in Hx. subst. destruct H; discriminate.
  - intros k x it Hx H. apply nth_repeat in Hx. subst. destruct H; discriminate.
  - intros k x it Hx H. apply nth_repeat in Hx. subst. discriminate.
  - intros i [[]|[]].
  - intros w y H. destruct w; discriminate.
  - intros t d k e H. apply nth_repeat in H. discriminate.
  - split; [discriminate|intros (c' & [])].
  - intros k x Hx H. apply nth_repeat in Hx. subst. discriminate.
  - intros t p H. apply nth_repeat in H. subst. exact I.
  - split; [discriminate|intros (c' & [])].
  - intros e y Hy. apply nth_repeat in Hy. subst. split; [reflexivity|discriminate].
Qed.
Lemma inv_reach n m c z s : reach n m c z s -> inv s.
Proof. induction 1; [apply inv_init|eapply inv_step; eauto]. Qed.
