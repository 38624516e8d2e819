(** * Invariants of user_scheduler *)
From Verif Require Import US_Model US_Spec SQ_Spec SQ_Proofs.
Set Implicit Arguments.

Lemma nth_upd {A} (l : list A) t x t' y : nth_error (upd l t x) t' = Some y -> (t' = t /\ y = x /\ t < length l) \/ (t' <> t /\ nth_error l t' = Some y).
Proof.
  revert t t'. induction l as [|a l IH]; intros [|t] [|t'] H; cbn in *; try discriminate; auto.
  - injection H as ->. left. repeat split; lia.
  - destruct (IH _ _ H) as [(-> & -> & L)|(N & E)]; [left; repeat split; lia|right; split; [lia|exact E]].
Qed.
Lemma nth_upd_same {A} (l : list A) t x : t < length l -> nth_error (upd l t x) t = Some x.
Proof. revert t. induction l as [|a l IH]; intros [|t] L; cbn in *; try lia; auto. apply IH. lia. Qed.
Lemma nth_upd_other {A} (l : list A) t x t' : t' <> t -> nth_error (upd l t x) t' = nth_error l t'.
Proof. revert t t'. induction l as [|a l IH]; intros [|t] [|t'] N; cbn; auto; try lia; apply IH; lia. Qed.

(** what holds of what a call returns, [h]: what had been observed just before *)
Definition closed_in (h : list event) : Prop := In EClose h \/ In EDestroyed h.
Definition good (e : event) (h : list event) : Prop :=
  match e with
  | ELoopEnd t => closed_in h /\ ((exists k h0, h = EEnd t k true :: h0) \/ accepted h = started h)
  | ETry t true => exists k h0, h = EEnd t k false :: h0
  | ETry t false => (exists k h0, h = EEnd t k true :: h0) \/ accepted h = started h
  | EUntil t true => exists k h0, h = EEnd t k false :: h0
  | EUntil t false => (exists k h0, h = EEnd t k true :: h0) \/ accepted h = started h
  | EAccept _ => ~ closed_in h
  | EStart _ k => prefix (started h ++ [k]) (accepted h)
  | EDestroyed => forall k, In k (started h) -> exists t b, In (EEnd t k b) h
  | EQueued _ => False
  | _ => True
  end.
Fixpoint goods (h : list event) : Prop := match h with [] => True | e :: h' => good e h' /\ goods h' end.

Record inv (s : us) : Prop := MkInv {
  i_wf : dv_wf (q s);
  i_st : started (hist s) ++ dv_stored (q s) = seq 0 (acc s);
  i_ac : accepted (hist s) = seq 0 (acc s);
  i_ub : ub s = false;
  i_cl : cl s = true <-> closed_in (hist s);
  i_l2 : forall t fs, nth_error (ths s) t = Some fs -> In FLoop2 fs -> cl s = true;
  i_nq : forall t fs d, nth_error (ths s) t = Some fs -> ~ In (FQueued d) fs;
  i_en : forall k, In k (started (hist s)) -> (exists t b, In (EEnd t k b) (hist s)) \/ (exists t fs, nth_error (ths s) t = Some fs /\ In (FRun k) fs);
  i_good : goods (hist s) }.

Lemma inv0 n : inv (us0 n).
Proof.
  constructor; cbn; auto.
  - left; auto.
  - split; [discriminate|intros [[]|[]]].
  - intros t fs E I. apply nth_error_In, repeat_spec in E. subst. destruct I.
  - intros t fs d E I. apply nth_error_In, repeat_spec in E. subst. destruct I.
  - intros k [].
Qed.

(** an event that changes neither list *)
Definition quiet (e : event) : Prop := match e with EAccept _ | EStart _ _ | EClose | EDestroyed => False | _ => True end.
Lemma closed_quiet e h : quiet e -> (closed_in (e :: h) <-> closed_in h).
Proof. intros Q. unfold closed_in. cbn. split; [intros [[->|I]|[->|I]]; auto; destruct Q|intros [I|I]; auto]. Qed.
Lemma accepted_quiet e h : quiet e -> accepted (e :: h) = accepted h.
Proof. destruct e; cbn; tauto. Qed.
Lemma started_quiet e h : quiet e -> started (e :: h) = started h.
Proof. destruct e; cbn; tauto. Qed.

Lemma inv_say s e : inv s -> quiet e -> good e (hist s) -> inv (say s e).
Proof.
  intros [W S A U C L N E G] Q O. constructor; cbn [say q hist acc ub cl ths]; auto.
  - rewrite started_quiet by exact Q. exact S.
  - rewrite accepted_quiet by exact Q. exact A.
  - rewrite closed_quiet by exact Q. exact C.
  - intros k I. rewrite started_quiet in I by exact Q. destruct (E k I) as [(t & b & I2)|R]; [left; exists t, b; right; exact I2|right; exact R].
  - split; assumption.
Qed.

(** replacing the frames of a thread by frames with the same closures *)
Lemma inv_th s t fs fs' : inv s -> nth_error (ths s) t = Some fs ->
  (forall k, In (FRun k) fs -> In (FRun k) fs' \/ exists t' b, In (EEnd t' k b) (hist s)) ->
  (forall f, In f fs' -> In f fs \/ f = FLoop1 \/ f = FBody \/ f = FTry \/ f = FUntil \/ (f = FLoop2 /\ cl s = true)) ->
  inv (set_th s t fs').
Proof.
  intros [W S A U C L N E G] T K F. constructor; cbn [set_th q hist acc ub cl ths]; auto.
  - intros t' fs2 E2 I. apply nth_upd in E2. destruct E2 as [(-> & -> & _)|(_ & E2)]; [|exact (L _ _ E2 I)].
    destruct (F _ I) as [I2|[D|[D|[D|[D|(_ & D)]]]]]; try discriminate; [exact (L _ _ T I2)|exact D].
  - intros t' fs2 d E2 I. apply nth_upd in E2. destruct E2 as [(-> & -> & _)|(_ & E2)]; [|exact (N _ _ _ E2 I)].
    destruct (F _ I) as [I2|[D|[D|[D|[D|(D & _)]]]]]; try discriminate. exact (N _ _ _ T I2).
  - intros k I. destruct (E k I) as [R|(t' & fs2 & E2 & I2)]; [left; exact R|].
    assert (Lt : t < length (ths s)) by (apply nth_error_Some; congruence).
    destruct (Nat.eq_dec t' t) as [->|Ne].
    + rewrite T in E2. injection E2 as ->. destruct (K _ I2) as [I3|I3]; [|left; exact I3].
      right. exists t, fs'. split; [apply nth_upd_same, Lt|exact I3].
    + right. exists t', fs2. split; [rewrite nth_upd_other by exact Ne; exact E2|exact I2].
Qed.

Lemma empty_all s : inv s -> dv_empty (q s) = true -> accepted (hist s) = started (hist s).
Proof. intros I E. apply (dv_empty_spec (i_wf I)) in E. rewrite (i_ac I), <- (i_st I), E, app_nil_r. reflexivity. Qed.

Lemma inv_pull s t f r below : inv s -> nth_error (ths s) t = Some (f :: r) -> dv_empty (q s) = false -> (forall k, f <> FRun k) ->
  below = f :: r \/ (f = FBody /\ below = FLoop1 :: r) ->
  inv (pull_run s t below).
Proof.
  intros I T E NF B. unfold pull_run. destruct I as [W S A U C L N En G].
  destruct (dv_stored (q s)) as [|k l] eqn:Q.
  { assert (X : dv_empty (q s) = true) by (apply dv_empty_spec; [exact W|exact Q]). congruence. }
  destruct (dv_pop_spec W Q) as (Hf & Hw & Hs & _). unfold dv_pull. rewrite Hf.
  assert (Lt : t < length (ths s)) by (apply nth_error_Some; congruence).
  assert (IB : forall g, In g below -> In g (f :: r) \/ g = FLoop1).
  { intros g J. destruct B as [->|(-> & ->)]; [left; exact J|]. destruct J as [<-|J]; [right; reflexivity|left; right; exact J]. }
  constructor; cbn [say set_th set_q q hist acc ub cl ths started accepted]; auto.
  - rewrite Hs, <- app_assoc. exact S.
  - rewrite C. unfold closed_in. cbn. split; [intros [J|J]; auto|intros [[J|J]|[J|J]]; auto; discriminate].
  - intros t' fs2 E2 J. apply nth_upd in E2. destruct E2 as [(-> & -> & _)|(_ & E2)]; [|exact (L _ _ E2 J)].
    destruct J as [J|J]; [discriminate|]. destruct (IB _ J) as [J2|J2]; [exact (L _ _ T J2)|discriminate].
  - intros t' fs2 d E2 J. apply nth_upd in E2. destruct E2 as [(-> & -> & _)|(_ & E2)]; [|exact (N _ _ _ E2 J)].
    destruct J as [J|J]; [discriminate|]. destruct (IB _ J) as [J2|J2]; [exact (N _ _ _ T J2)|discriminate].
  - intros k' J. apply in_app_or in J. destruct J as [J|[<-|[]]].
    + destruct (En _ J) as [(t' & b & J2)|(t' & fs2 & E2 & J2)]; [left; exists t', b; right; exact J2|].
      right. destruct (Nat.eq_dec t' t) as [->|Ne].
      * rewrite T in E2. injection E2 as <-. exists t, (FRun k :: below). split; [apply nth_upd_same, Lt|]. right.
        destruct J2 as [J2|J2]; [exfalso; exact (NF _ J2)|]. destruct B as [->|(_ & ->)]; right; exact J2.
      * exists t', fs2. split; [rewrite nth_upd_other by exact Ne; exact E2|exact J2].
    + right. exists t, (FRun k :: below). split; [apply nth_upd_same, Lt|left; reflexivity].
  - split; [|exact G]. exists l. rewrite A, <- app_assoc. symmetry. exact S.
Qed.

Lemma inv_call s t fs o : no_queued o = true -> inv s -> nth_error (ths s) t = Some fs -> inv (call s t fs o).
Proof.
  intros Q I T. destruct o; cbn [call]; try discriminate Q.
  - destruct (cl s) eqn:Ec; [apply inv_say; [exact I|exact Logic.I|exact Logic.I]|].
    destruct I as [W S A U C L N E G]. destruct (dv_push_spec (acc s) W) as (W2 & S2).
    constructor; cbn [say q hist acc ub cl ths started accepted]; auto.
    + rewrite S2, app_assoc, S, seq_S. reflexivity.
    + rewrite A, seq_S. reflexivity.
    + split; [intros X; congruence|]. intros [[J|J]|[J|J]]; try discriminate; rewrite <- Ec; apply C; [left|right]; exact J.
    + intros t' fs2 E2 J. rewrite <- Ec. exact (L _ _ E2 J).
    + intros k J. destruct (E _ J) as [(t' & b & J2)|R]; [left; exists t', b; right; exact J2|right; exact R].
    + split; [|exact G]. intros X. apply C in X. congruence.
  - destruct I as [W S A U C L N E G]. constructor; cbn [say q hist acc ub cl ths started accepted]; auto.
    + split; [intros _; left; left; reflexivity|auto].
    + intros k J. destruct (E _ J) as [(t' & b & J2)|R]; [left; exists t', b; right; exact J2|right; exact R].
    + split; [exact Logic.I|exact G].
  - eapply inv_th with (fs := fs); [auto|eauto|intros k J; left; right; exact J|]. intros f [<-|J]; auto 8.
  - eapply inv_th with (fs := fs); [auto|eauto|intros k J; left; right; exact J|]. intros f [<-|J]; auto 8.
  - eapply inv_th with (fs := fs); [auto|eauto|intros k J; left; right; exact J|]. intros f [<-|J]; auto 8.
Qed.

(** dropping the innermost frame, not a closure *)
Lemma inv_drop s t f r : inv s -> nth_error (ths s) t = Some (f :: r) -> (forall k, f <> FRun k) -> inv (set_th s t r).
Proof.
  intros I T NF. eapply inv_th with (fs := f :: r); [auto|eauto| |].
  - intros k [J|J]; [exfalso; exact (NF _ J)|left; exact J].
  - intros g J. left. right. exact J.
Qed.

Lemma inv_go s t fs s' : inv s -> nth_error (ths s) t = Some fs -> go s t fs = Some s' -> inv s'.
Proof.
  intros I T X. destruct fs as [|[| | | | |d|k] r]; cbn [go] in X; try discriminate; injection X as <-.
  - eapply inv_th with (fs := FLoop1 :: r); [auto|eauto| |].
    + intros k [J|J]; [discriminate|left; right; exact J].
    + intros g [<-|J]; [|left; right; exact J]. destruct (cl s); auto 10.
  - destruct (dv_empty (q s)) eqn:E.
    + eapply inv_th with (fs := FBody :: r); [auto|eauto| |].
      * intros k [J|J]; [discriminate|left; right; exact J].
      * intros g [<-|J]; [auto|left; right; exact J].
    + apply (@inv_pull s t FBody r); auto; discriminate.
  - destruct (dv_empty (q s)) eqn:E.
    + apply inv_say; [eapply inv_drop with (f := FLoop2); eauto; discriminate|exact Logic.I|].
      cbn. split; [|right; apply empty_all; auto]. apply (i_cl I), (i_l2 I t T). left. reflexivity.
    + apply (@inv_pull s t FLoop2 r); auto; discriminate.
  - destruct (dv_empty (q s)) eqn:E.
    + apply inv_say; [eapply inv_drop with (f := FTry); eauto; discriminate|exact Logic.I|]. cbn. right. apply empty_all; auto.
    + apply (@inv_pull s t FTry r); auto; discriminate.
  - destruct (dv_empty (q s)) eqn:E.
    + apply inv_say; [eapply inv_drop with (f := FUntil); eauto; discriminate|exact Logic.I|]. cbn. right. apply empty_all; auto.
    + apply (@inv_pull s t FUntil r); auto; discriminate.
  - exfalso. apply (i_nq I t d T). left. reflexivity.
Qed.

Lemma inv_finish s t k threw p r : inv s -> nth_error (ths s) t = Some (FRun k :: r) -> inv (finish s t k threw p r).
Proof.
  intros I T. unfold finish.
  assert (I1 : inv (say s (EEnd t k threw))) by (apply inv_say; [exact I|exact Logic.I|exact Logic.I]).
  assert (T1 : nth_error (ths (say s (EEnd t k threw))) t = Some (FRun k :: r)) by exact T.
  assert (D : forall r', (forall g, In g r' -> In g r) -> (forall k', In (FRun k') r -> In (FRun k') r') -> inv (set_th (say s (EEnd t k threw)) t r')).
  { intros r' S1 S2. eapply inv_th with (fs := FRun k :: r); [auto|eauto| |].
    - intros k' [J|J]; [injection J as <-; right; exists t, threw; left; reflexivity|left; apply S2, J].
    - intros g J. left. right. apply S1, J. }
  assert (D0 : inv (set_th (say s (EEnd t k threw)) t r)) by (apply D; auto).
  destruct r as [|[| | | | |d|k'] r']; try exact D0.
  - destruct threw; [|exact D0]. apply inv_say; [apply D|exact Logic.I|].
    + intros g J; right; exact J.
    + intros k' [J|J]; [discriminate|exact J].
    + cbn. split; [|left; exists k, (hist s); reflexivity]. apply closed_quiet; [exact Logic.I|].
      apply (i_cl I), (i_l2 I t T). right. left. reflexivity.
  - apply inv_say; [apply D|destruct threw; exact Logic.I|].
    + intros g J; right; exact J.
    + intros k' [J|J]; [discriminate|exact J].
    + destruct threw; cbn; [left|]; exists k, (hist s); reflexivity.
  - assert (D1 : inv (set_th (say s (EEnd t k threw)) t r')).
    { apply D; [intros g J; right; exact J|intros k' [J|J]; [discriminate|exact J]]. }
    destruct threw; [|destruct p; [|exact D0]]; (apply inv_say; [exact D1|exact Logic.I|]); cbn; [left|]; exists k, (hist s); reflexivity.
Qed.

Lemma inv_exec s l s' : inv s -> exec no_queued s l = Some s' -> inv s'.
Proof.
  intros I X. unfold exec in X. destruct (ub s || dead s); [discriminate|]. destruct l as [t o|t|t threw p|].
  - destruct (no_queued o) eqn:Q; [|discriminate]. destruct (nth_error (ths s) t) as [[|[| | | | |d|k] r]|] eqn:T; try discriminate;
      injection X as <-; apply inv_call; auto.
  - destruct (nth_error (ths s) t) as [fs|] eqn:T; [|discriminate]. exact (@inv_go s t fs s' I T X).
  - destruct (nth_error (ths s) t) as [[|[| | | | |d|k] r]|] eqn:T; try discriminate. injection X as <-. apply inv_finish; auto.
  - destruct (forallb idle (ths s)) eqn:F; [|discriminate]. injection X as <-.
    destruct I as [W S A U C L N E G]. constructor; cbn [q hist acc ub cl ths started accepted]; auto.
    + split; [intros _; right; left; reflexivity|auto].
    + intros k J. destruct (E _ J) as [(t' & b & J2)|R]; [left; exists t', b; right; exact J2|right; exact R].
    + split; [|exact G]. cbn. intros k J. destruct (E _ J) as [R|(t & fs & E2 & J2)]; [exact R|].
      rewrite forallb_forall in F. apply nth_error_In, F in E2. destruct fs; [destruct J2|discriminate].
Qed.

Lemma inv_run s ls s' : inv s -> runl no_queued s ls = Some s' -> inv s'.
Proof.
  revert s. induction ls as [|l ls IH]; intros s I R; cbn in R; [injection R as <-; exact I|].
  destruct (exec no_queued s l) as [s1|] eqn:X; [|discriminate]. exact (IH _ (@inv_exec s l s1 I X) R).
Qed.
Lemma inv_reach n s : reach no_queued n s -> inv s.
Proof. intros (ls & R). exact (@inv_run (us0 n) ls s (inv0 n) R). Qed.

Lemma goods_mid h2 e h1 : goods (h2 ++ e :: h1) -> good e h1.
Proof. induction h2 as [|x h2 IH]; cbn; [intros (G & _); exact G|intros (_ & G); exact (IH G)]. Qed.

(** once closed, nothing more is accepted *)
Lemma accepted_after h2 h1 : goods (h2 ++ h1) -> closed_in h1 -> accepted (h2 ++ h1) = accepted h1.
Proof.
  induction h2 as [|e h2 IH]; intros G C; [reflexivity|]. destruct G as (O & G). specialize (IH G C).
  assert (C2 : closed_in (h2 ++ h1)) by (destruct C as [J|J]; [left|right]; apply in_or_app; right; exact J).
  destruct e; cbn [accepted app]; auto. exfalso. exact (O C2).
Qed.
Lemma started_grow h2 h1 : exists c, started (h2 ++ h1) = started h1 ++ c.
Proof.
  induction h2 as [|e h2 (c & IH)]; [exists []; rewrite app_nil_r; reflexivity|].
  destruct e as [| | | |t k| | | | |]; cbn [started app]; try (exists c; exact IH).
  exists (c ++ [k]). rewrite IH, app_assoc. reflexivity.
Qed.
Lemma NoDup_front (a b : list nat) : NoDup (a ++ b) -> NoDup a.
Proof.
  induction a as [|x a IH]; cbn; intros N; [constructor|]. inversion N as [|? ? X Y]; subst. constructor; [|exact (IH Y)].
  intros J. apply X, in_or_app. left. exact J.
Qed.
