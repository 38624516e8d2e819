(** * What is scheduled is what was asked for *)
From Verif Require Import SR_Model SR_Spec.
Set Implicit Arguments.

Definition wdesc (w : wrap) : Z * option nat := (wtp w, won w).
Definition pc_ok (ls : list label) (t : nat) (p : pc) : Prop :=
  match p with
  | PSch w | PEx w => last_call t ls = Some (OSubmit w)
  | PPush (d, o) => asked ls t d o
  | _ => True
  end.
Definition ok (s : sys) (ls : list label) : Prop :=
  map wdesc (wraps s) = obtained ls /\ forall t p, nth_error (cls s) t = Some p -> pc_ok ls t p.

Lemma nth_modify {A} (l : list A) t f t' : nth_error (modify l t f) t' = if t' =? t then option_map f (nth_error l t) else nth_error l t'.
Proof.
  revert t t'. induction l as [|a l IH]; intros [|t] [|t']; cbn; auto; try (destruct (t' =? t); reflexivity); rewrite ?IH; reflexivity.
Qed.
Lemma obtained_snoc ls l : obtained (ls ++ [l]) = obtained ls ++ obtained [l].
Proof. unfold obtained. rewrite flat_map_app. reflexivity. Qed.
Lemma last_snoc t ls l : last_call t (ls ++ [l]) = match l with LCall t' o => if t' =? t then Some o else last_call t ls | _ => last_call t ls end.
Proof. unfold last_call. rewrite fold_left_app. reflexivity. Qed.
Lemma nth_more {A} (a b : list A) w x : nth_error a w = Some x -> nth_error (a ++ b) w = Some x.
Proof. intros E. rewrite nth_error_app1; [exact E|]. apply nth_error_Some. congruence. Qed.

(** other labels of other clients do not matter *)
Lemma pc_ok_more ls l t p : (forall t' o, l = LCall t' o -> t' <> t) -> pc_ok ls t p -> pc_ok (ls ++ [l]) t p.
Proof.
  intros N O. assert (L : last_call t (ls ++ [l]) = last_call t ls).
  { rewrite last_snoc. destruct l as [t' o| | | | |]; auto. destruct (t' =? t) eqn:E; auto. apply Nat.eqb_eq in E. exfalso. exact (N _ _ eq_refl E). }
  destruct p as [|w|w|(d, o)| | |]; cbn in *; auto; try (rewrite L; exact O).
  unfold asked in *. rewrite L. destruct (last_call t ls) as [[]|]; auto. rewrite obtained_snoc. apply nth_more, O.
Qed.

Lemma ok_one s s' ls l t p : ok s ls -> wraps s' = wraps s -> obtained [l] = [] -> cls s' = modify (cls s) t (fun _ => p) ->
  (forall t' o, l = LCall t' o -> t' = t) -> pc_ok (ls ++ [l]) t p -> ok s' (ls ++ [l]).
Proof.
  intros (W & C) E1 E2 E3 E4 E5. split; [rewrite E1, obtained_snoc, E2, app_nil_r; exact W|].
  intros t' p'. rewrite E3, nth_modify. destruct (t' =? t) eqn:Q.
  - apply Nat.eqb_eq in Q. subst t'. destruct (nth_error (cls s) t); cbn; [|discriminate]. intros E. injection E as <-. exact E5.
  - intros E. apply pc_ok_more; [|exact (C _ _ E)]. intros u o E6. rewrite (E4 _ _ E6). apply Nat.eqb_neq in Q. auto.
Qed.
Lemma ok_none s s' ls l : ok s ls -> map wdesc (wraps s') = map wdesc (wraps s) ++ obtained [l] -> cls s' = cls s ->
  (forall t' o, l = LCall t' o -> nth_error (cls s) t' = Some PIdle) -> ok s' (ls ++ [l]).
Proof.
  intros (W & C) E1 E2 E3. split; [rewrite E1, obtained_snoc, W; reflexivity|].
  intros t' p'. rewrite E2. intros E. destruct l as [u o| | | | |]; try (apply pc_ok_more; [discriminate|exact (C _ _ E)]).
  destruct (Nat.eq_dec u t') as [->|Ne].
  - rewrite (E3 _ _ eq_refl) in E. injection E as <-. exact I.
  - apply pc_ok_more; [|exact (C _ _ E)]. intros u' o' E4. injection E4 as -> _. exact Ne.
Qed.

Lemma map_close l w : map wdesc (modify l w (fun y => Wr (won y) (wtp y) true)) = map wdesc l.
Proof. revert w. induction l as [|a l IH]; intros [|w]; cbn; auto. rewrite IH. reflexivity. Qed.

Lemma ok_exec s ls l s' : ok s ls -> exec s l = Some s' -> ok s' (ls ++ [l]).
Proof.
  intros O X. unfold exec in X. destruct (dead s); [discriminate|]. destruct l as [t o|t|k j|k|k a|d].
  - destruct (nth_error (cls s) t) as [[| | | | | |]|] eqn:T; try discriminate.
    assert (NC : forall t' o', LCall t o = LCall t' o' -> nth_error (cls s) t' = Some PIdle) by (intros t' o' E; injection E as <- _; exact T).
    assert (SC : forall t' o', LCall t o = LCall t' o' -> t' = t) by (intros t' o' E; injection E as <- _; reflexivity).
    destruct o as [tp|e tp|tp|w|w| |e|]; cbn [call] in X.
    + injection X as <-. apply (@ok_none s); auto. cbn. rewrite map_app. reflexivity.
    + destruct (e <? length (exs s)); [|discriminate]. injection X as <-. apply (@ok_none s); auto. cbn. rewrite map_app. reflexivity.
    + injection X as <-. (eapply ok_one with (t := t); [exact O|reflexivity|reflexivity|reflexivity|assumption|]). cbn [pc_ok]. unfold asked. rewrite last_snoc, Nat.eqb_refl. auto.
    + destruct (nth_error (wraps s) w) as [y|]; [|discriminate]. destruct (wcl y); injection X as <-; (eapply ok_one with (t := t); [exact O|reflexivity|reflexivity|reflexivity|assumption|]); cbn [pc_ok]; auto.
      rewrite last_snoc, Nat.eqb_refl. reflexivity.
    + injection X as <-. apply (@ok_none s); auto. cbn. rewrite map_close, app_nil_r. reflexivity.
    + injection X as <-. apply (@ok_none s); auto. cbn. rewrite app_nil_r. reflexivity.
    + injection X as <-. apply (@ok_none s); auto. cbn. rewrite app_nil_r. reflexivity.
    + destruct (started (hist s)); [discriminate|]. injection X as <-. (eapply ok_one with (t := t); [exact O|reflexivity|reflexivity|reflexivity|assumption|]). exact I.
  - destruct (nth_error (cls s) t) as [p|] eqn:T; [|discriminate].
    assert (NL : forall t' o', LClient t = LCall t' o' -> t' = t) by discriminate.
    assert (P : pc_ok (ls ++ [LClient t]) t p) by (apply pc_ok_more; [discriminate|exact (proj2 O _ _ T)]).
    destruct p as [|w|w|(d, o)| |k|]; cbn [crun] in X; try discriminate.
    + destruct (nth_error (wraps s) w) as [y|] eqn:W; [|discriminate]. destruct (closed s); [injection X as <-; (eapply ok_one with (t := t); [exact O|reflexivity|reflexivity|reflexivity|assumption|]); exact I|].
      destruct (won y) as [e|] eqn:E; injection X as <-; (eapply ok_one with (t := t); [exact O|reflexivity|reflexivity|reflexivity|assumption|]); cbn [pc_ok]; auto.
      unfold asked. cbn [pc_ok] in P. rewrite P. rewrite obtained_snoc. apply nth_more. rewrite <- (proj1 O), nth_error_map, W. cbn. unfold wdesc. rewrite E. reflexivity.
    + destruct (nth_error (wraps s) w) as [y|] eqn:W; [|discriminate]. destruct (won y) as [e|] eqn:E; [|discriminate].
      destruct (nth_error (exs s) e) as [z|]; [|discriminate]. destruct (xcl z); injection X as <-; (eapply ok_one with (t := t); [exact O|reflexivity|reflexivity|reflexivity|assumption|]); cbn [pc_ok]; auto.
      unfold asked. cbn [pc_ok] in P. rewrite P. rewrite obtained_snoc. apply nth_more. rewrite <- (proj1 O), nth_error_map, W. cbn. unfold wdesc. rewrite E. reflexivity.
    + destruct (closed s); injection X as <-; (eapply ok_one with (t := t); [exact O|reflexivity|reflexivity|reflexivity|assumption|]); exact I.
    + injection X as <-. (eapply ok_one with (t := t); [exact O|reflexivity|reflexivity|reflexivity|assumption|]); exact I.
    + destruct (k <? length (wks s)); injection X as <-; (eapply ok_one with (t := t); [exact O|reflexivity|reflexivity|reflexivity|assumption|]); exact I.
    + destruct (forallb gone (wks s)); [|discriminate]. injection X as <-. (eapply ok_one with (t := t); [exact O|reflexivity|reflexivity|reflexivity|assumption|]); exact I.
  - destruct (nth_error (wks s) k) as [x|]; [|discriminate]. unfold pull in X. destruct (ws x); try discriminate. destruct (nth_error (pend s) j); [|discriminate].
    destruct (_ && _); [|discriminate]. injection X as <-. apply (@ok_none s); auto; [cbn; rewrite app_nil_r; reflexivity|discriminate].
  - destruct (nth_error (wks s) k) as [x|]; [|discriminate]. unfold wrun in X.
    assert (G : wraps s' = wraps s /\ cls s' = cls s).
    { destruct (ws x) as [| |it|it|]; try discriminate.
      - destruct (is_due s); [discriminate|]. destruct (closed s); [injection X as <-; auto|]. destruct (flag x); injection X as <-; auto.
      - destruct (flag x); [injection X as <-; auto|]. destruct (_ || _); [injection X as <-; auto|discriminate].
      - destruct (on it) as [e|]; [|injection X as <-; auto]. destruct (nth_error (exs s) e) as [y|]; [|discriminate]. destruct (xcl y); injection X as <-; auto. }
    destruct G as (G1 & G2). apply (@ok_none s); auto; [rewrite G1; cbn; rewrite app_nil_r; reflexivity|discriminate].
  - destruct (nth_error (wks s) k) as [x|]; [|discriminate]. unfold wact in X.
    assert (G : wraps s' = wraps s /\ cls s' = cls s).
    { destruct (ws x) as [| |it|it|]; try discriminate. destruct a as [| |b]; try (injection X as <-; auto). destruct (flag x); [injection X as <-; auto|discriminate]. }
    destruct G as (G1 & G2). apply (@ok_none s); auto; [rewrite G1; cbn; rewrite app_nil_r; reflexivity|discriminate].
  - injection X as <-. apply (@ok_none s); auto; [cbn; rewrite app_nil_r; reflexivity|discriminate].
Qed.

Lemma ok_run n m c z ls s : runl (init n m c z) ls = Some s -> ok s ls.
Proof.
  assert (G : forall ls s0 l0, ok s0 l0 -> runl s0 ls = Some s -> ok s (l0 ++ ls)).
  { clear ls. induction ls as [|l ls IH]; intros s0 l0 O R; cbn in R; [injection R as <-; rewrite app_nil_r; exact O|].
    destruct (exec s0 l) as [s1|] eqn:X; [|discriminate]. replace (l0 ++ l :: ls) with ((l0 ++ [l]) ++ ls) by (rewrite <- app_assoc; reflexivity).
    exact (IH s1 _ (ok_exec _ O X) R). }
  intros R. apply (G ls (init n m c z) []); [|exact R]. split; [reflexivity|]. cbn. intros t p E. apply nth_error_In, repeat_spec in E. subst. exact I.
Qed.

Lemma sub_asked n m c z ls t s s' i d o : runl (init n m c z) ls = Some s -> exec s (LClient t) = Some s' -> hist s' = ESub i d o :: hist s -> asked ls t d o.
Proof.
  intros R X H. pose proof (ok_run _ _ _ _ _ R) as (_ & C). unfold exec in X. destruct (dead s); [discriminate|].
  destruct (nth_error (cls s) t) as [p|] eqn:T; [|discriminate]. specialize (C _ _ T).
  assert (NE : forall e : event, hist s <> e :: hist s).
  { intros e E. apply (f_equal (@length event)) in E. cbn in E. lia. }
  destruct p as [|w|w|(d', o')| |k|]; cbn [crun] in X; try discriminate.
  - destruct (nth_error (wraps s) w) as [y|]; [|discriminate]. destruct (closed s); [injection X as <-; discriminate|].
    destruct (won y); injection X as <-; exfalso; exact (NE _ H).
  - destruct (nth_error (wraps s) w) as [y|]; [|discriminate]. destruct (won y) as [e|]; [|discriminate].
    destruct (nth_error (exs s) e) as [x|]; [|discriminate]. destruct (xcl x); injection X as <-; [discriminate|exfalso; exact (NE _ H)].
  - destruct (closed s); injection X as <-; [discriminate|]. injection H as _ <- <-. exact C.
  - injection X as <-. discriminate.
  - destruct (k <? length (wks s)); injection X as <-; exfalso; exact (NE _ H).
  - destruct (forallb gone (wks s)); [|discriminate]. injection X as <-. discriminate.
Qed.
