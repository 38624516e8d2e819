(** * Invariants of visible outcomes *)
From Coq Require Import List Arith Bool Lia.
From Verif Require Import OV_Spec.
Import ListNotations.
Set Implicit Arguments.

Definition showing (s : sys) (o : outcome) : Prop :=
  match o with Val v => res s = Some v /\ exc s = None | Exc e => exc s = Some e end.
Definition unfailed (h : list event) : Prop := forall n e, ~ In (EFail n e) h.
Definition settled (k : kind) (s : sys) : Prop :=
  exists o, In (EFun o) (hist s) /\ (showing s o \/ (k = Task /\ exists v n e, o = Val v /\ exc s = Some e /\ In (EFail n e) (hist s))).
Definition at_pc (k : kind) (s : sys) : Prop :=
  match pc s with
  | PStart => done s = false /\ res s = None /\ exc s = None /\ unfailed (hist s)
  | PStored => k = AtExit /\ done s = false /\ unfailed (hist s) /\ exists o, In (EFun o) (hist s) /\ showing s o
  | PCatch e => k = Task /\ exc s = None /\
      ((done s = false /\ unfailed (hist s) /\ In (EFun (Exc e)) (hist s)) \/
       (exists v n, done s = true /\ res s = Some v /\ In (EFun (Val v)) (hist s) /\ In (EFail n e) (hist s)))
  | PLaunch l false => k = Task /\ done s = true /\ unfailed (hist s) /\ exists v, res s = Some v /\ exc s = None /\ In (EFun (Val v)) (hist s)
  | PLaunch l true => done s = true /\ settled k s /\ (k = Task -> l = [] \/ exists e, In (EFun (Exc e)) (hist s))
  | PEnd | PGone _ => done s = true /\ settled k s
  end.
Record inv (k : kind) (s : sys) : Prop := {
  i_pc : at_pc k s ;
  i_conts : done s = true -> conts s = [] ;
  i_gone : forall e, In (EGone e) (hist s) -> (exists n, In (EFail n e) (hist s)) /\ (k = Task -> exists e', In (EFun (Exc e')) (hist s)) ;
  i_obs : forall t o, In (EObs t (Some o)) (hist s) -> view s = Some o \/ (k = Task /\ exists v n e, o = Val v /\ view s = Some (Exc e) /\ In (EFail n e) (hist s))
}.
Lemma view_settled k s : done s = true -> settled k s -> exists o, In (EFun o) (hist s) /\
  (view s = Some o \/ (k = Task /\ exists v n e, o = Val v /\ view s = Some (Exc e) /\ In (EFail n e) (hist s))).
Proof.
  intros Hd (o & Hf & [Hs|(Hk & v & n & e & -> & He & Hn)]); eexists; (split; [exact Hf|]); unfold view; rewrite Hd.
  - left. destruct o as [v|e]; cbn in Hs; [destruct Hs as [-> ->]|rewrite Hs]; reflexivity.
  - right. split; [exact Hk|]. exists v, n, e. rewrite He. auto.
Qed.
Lemma no_obs k s t o : inv k s -> done s = false -> ~ In (EObs t (Some o)) (hist s).
Proof. intros I Hd Hin. destruct (i_obs I _ _ Hin) as [E|(_ & v & n & e & _ & E & _)]; unfold view in E; rewrite Hd in E; discriminate. Qed.
Lemma unfailed_cons h x : unfailed h -> (forall n e, x <> EFail n e) -> unfailed (x :: h).
Proof. intros H Hx n e [E|Hin]; [now apply (Hx n e)|now apply (H n e)]. Qed.

Definition noted (s : sys) (x : event) : sys := Sys (done s) (res s) (exc s) (conts s) (nxt s) (pc s) (x :: hist s).
Lemma inv_note k s x : inv k s -> (forall n e, x <> EFail n e) -> (forall e, x <> EGone e) -> (forall t o, x = EObs t (Some o) -> view s = Some o) -> inv k (noted s x).
Proof.
  intros I X1 X2 X3. pose proof (i_pc I) as P; unfold at_pc in P. unfold noted.
   assert (W : forall o, In (EFun o) (hist s) -> In (EFun o) (x :: hist s)) by (intros; now right).
    assert (W2 : forall n e, In (EFail n e) (hist s) -> In (EFail n e) (x :: hist s)) by (intros; now right).
    assert (W3 : unfailed (hist s) -> unfailed (x :: hist s)) by (intros Hu; apply unfailed_cons; [exact Hu|exact X1]).
    assert (W4 : forall s0, s0 = Sys (done s) (res s) (exc s) (conts s) (nxt s) (pc s) (x :: hist s) -> settled k s -> settled k s0).
    { intros s0 -> (o & Hf & Ho). exists o. split; [now apply W|]. destruct Ho as [Ho|(Hk & v & n & e & E1 & E2 & E3)]; [left; destruct o; exact Ho|]. right. split; [exact Hk|].
      exists v, n, e. cbn. auto. }
    constructor; cbn [done res exc conts nxt pc hist].
    + unfold at_pc. cbn [done res exc conts nxt pc hist]. destruct (pc s) as [| |l h|e| |e] eqn:Ep.
      * destruct P as (A & B & C & D). auto.
      * destruct P as (A & B & C & o & D & E). split; [exact A|]. split; [exact B|]. split; [exact (W3 C)|]. exists o. split; [exact (W _ D)|destruct o; exact E].
      * destruct h.
        -- destruct P as (A & B & C). split; [exact A|]. split; [exact (W4 _ eq_refl B)|]. intros Ek. destruct (C Ek) as [E|(e & E)]; [left; exact E|right; exists e; exact (W _ E)].
        -- destruct P as (A & B & C & v & D & E & F). split; [exact A|]. split; [exact B|]. split; [exact (W3 C)|]. exists v. auto.
      * destruct P as (A & B & [(C & D & E)|(v & n & C & D & E & F)]); split; [exact A| |exact A|]; (split; [exact B|]); [left|right]; auto. exists v, n. auto.
      * destruct P as (A & B). split; [exact A|exact (W4 _ eq_refl B)].
      * destruct P as (A & B). split; [exact A|exact (W4 _ eq_refl B)].
    + exact (i_conts I).
    + intros e [E|Hin]; [now destruct (X2 e)|]. destruct (i_gone I _ Hin) as ((n & Hn) & G). split; [exists n; now apply W2|]. intros Ek. destruct (G Ek) as (e' & E). exists e'. now apply W.
    + intros t' o [E|Hin].
      * left. exact (X3 _ _ E).
      * destruct (i_obs I _ _ Hin) as [E|(Hk & v & n & e & E1 & E2 & E3)]; [left; exact E|]. right. split; [exact Hk|]. exists v, n, e. auto.
Qed.
Lemma step_inv k s s' : inv k s -> step k s s' -> inv k s'.
Proof.
  intros I Hst. destruct Hst as [s v Hk Hp|s e Hk Hp|s e Hk Hp|s e Hk Hp|s e Hp|s v Hk Hp|s e Hk Hp|s Hp|s n l h Hp|s n l h e Hp|s h Hp|s Hd0|s Hd0|s e Hd0|s t];
    pose proof (i_pc I) as P; unfold at_pc in P; try rewrite Hp in P.
  - (* value *) destruct P as (Hd & Hr & Hx & Hu). constructor; cbn.
    + unfold at_pc; cbn. destruct k; [| |congruence].
      * split; [reflexivity|]. split; [|discriminate]. exists (Val v). split; [left; reflexivity|]. left. cbn. auto.
      * split; [reflexivity|]. split; [reflexivity|]. split; [apply unfailed_cons; [exact Hu|discriminate]|]. exists v. auto.
    + reflexivity.
    + intros e [E|Hin]; [discriminate|]. destruct (i_gone I _ Hin) as ((n & Hn) & _). now destruct (Hu n e).
    + intros t o [E|Hin]; [discriminate|]. now destruct (@no_obs _ _ _ _ I Hd Hin).
  - (* set_exception *) destruct P as (Hd & Hr & Hx & Hu). constructor; cbn.
    + unfold at_pc; cbn. split; [reflexivity|]. split; [|intros E; congruence]. exists (Exc e). split; [left; reflexivity|]. left. reflexivity.
    + reflexivity.
    + intros e1 [E|Hin]; [discriminate|]. destruct (i_gone I _ Hin) as ((n & Hn) & _). now destruct (Hu n e1).
    + intros t o [E|Hin]; [discriminate|]. now destruct (@no_obs _ _ _ _ I Hd Hin).
  - (* retry *) destruct P as (Hd & Hr & Hx & Hu). constructor; cbn.
    + unfold at_pc; cbn. repeat (split; [assumption|]). apply unfailed_cons; [exact Hu|discriminate].
    + exact (i_conts I).
    + intros e1 [E|Hin]; [discriminate|]. destruct (i_gone I _ Hin) as ((n & Hn) & _). now destruct (Hu n e1).
    + intros t o [E|Hin]; [discriminate|]. now destruct (@no_obs _ _ _ _ I Hd Hin).
  - (* throw *) destruct P as (Hd & Hr & Hx & Hu). constructor; cbn.
    + unfold at_pc; cbn. split; [exact Hk|]. split; [exact Hx|]. left. split; [exact Hd|]. split; [apply unfailed_cons; [exact Hu|discriminate]|left; reflexivity].
    + exact (i_conts I).
    + intros e1 [E|Hin]; [discriminate|]. destruct (i_gone I _ Hin) as ((n & Hn) & _). now destruct (Hu n e1).
    + intros t o [E|Hin]; [discriminate|]. now destruct (@no_obs _ _ _ _ I Hd Hin).
  - (* catch *) destruct P as (Hk & Hx & P). constructor; cbn.
    + unfold at_pc; cbn. split; [reflexivity|]. destruct P as [(Hd & Hu & Hf)|(v & n & Hd & Hr & Hf & Hn)].
      * split; [|intros _; right; exists e; exact Hf]. exists (Exc e). split; [exact Hf|]. left. reflexivity.
      * split; [|intros _; left; exact (i_conts I Hd)]. exists (Val v). split; [exact Hf|]. right. split; [exact Hk|]. exists v, n, e. auto.
    + reflexivity.
    + exact (i_gone I).
    + intros t o Hin. destruct P as [(Hd & Hu & Hf)|(v & n & Hd & Hr & Hf & Hn)]; [now destruct (@no_obs _ _ _ _ I Hd Hin)|]. right. split; [exact Hk|].
      destruct (i_obs I _ _ Hin) as [E|(_ & v1 & n1 & e1 & _ & E & _)]; unfold view in E; rewrite Hd, Hx, Hr in E; [|discriminate]. injection E as <-.
      exists v, n, e. auto.
  - (* store value *) destruct P as (Hd & Hr & Hx & Hu). constructor; cbn.
    + unfold at_pc; cbn. split; [exact Hk|]. split; [exact Hd|]. split; [apply unfailed_cons; [exact Hu|discriminate]|]. exists (Val v). cbn. auto.
    + exact (i_conts I).
    + intros e1 [E|Hin]; [discriminate|]. destruct (i_gone I _ Hin) as ((n & Hn) & _). now destruct (Hu n e1).
    + intros t o [E|Hin]; [discriminate|]. now destruct (@no_obs _ _ _ _ I Hd Hin).
  - (* store exception *) destruct P as (Hd & Hr & Hx & Hu). constructor; cbn.
    + unfold at_pc; cbn. split; [exact Hk|]. split; [exact Hd|]. split; [apply unfailed_cons; [exact Hu|discriminate]|]. exists (Exc e). cbn. auto.
    + exact (i_conts I).
    + intros e1 [E|Hin]; [discriminate|]. destruct (i_gone I _ Hin) as ((n & Hn) & _). now destruct (Hu n e1).
    + intros t o [E|Hin]; [discriminate|]. now destruct (@no_obs _ _ _ _ I Hd Hin).
  - (* notify *) destruct P as (Hk & Hd & Hu & o & Hf & Hs). constructor; cbn.
    + unfold at_pc; cbn. split; [reflexivity|]. split; [|congruence]. exists o. split; [exact Hf|]. left. destruct o; exact Hs.
    + reflexivity.
    + exact (i_gone I).
    + intros t o' Hin. now destruct (@no_obs _ _ _ _ I Hd Hin).
  - (* launch *) refine (@inv_note k (Sys (done s) (res s) (exc s) (conts s) (nxt s) (PLaunch l h) (hist s)) _ _ _ _ _); try discriminate. destruct h.
    + destruct P as (Hd & Hs & Hl). constructor; cbn; [|exact (i_conts I)|exact (i_gone I)|exact (i_obs I)]. unfold at_pc; cbn. split; [exact Hd|]. split; [exact Hs|].
      intros Ek. destruct (Hl Ek) as [E|E]; [discriminate|right; exact E].
    + constructor; cbn; [exact P|exact (i_conts I)|exact (i_gone I)|exact (i_obs I)].
  - (* fail *) destruct h.
    + destruct P as (Hd & (o & Hf & Ho) & Hl). constructor; cbn.
      * unfold at_pc; cbn. split; [exact Hd|]. exists o. split; [right; right; exact Hf|]. destruct Ho as [Ho|(Hk & v & n1 & e1 & E1 & E2 & E3)]; [left; destruct o; exact Ho|].
        right. split; [exact Hk|]. exists v, n1, e1. cbn. auto.
      * exact (i_conts I).
      * intros e1 [E|[E|Hin]]; [|discriminate|].
        -- injection E as <-. split; [exists n; right; left; reflexivity|]. intros Ek. destruct (Hl Ek) as [E|(e' & E)]; [discriminate|]. exists e'. right. right. exact E.
        -- destruct (i_gone I _ Hin) as ((n1 & Hn1) & G). split; [exists n1; right; right; exact Hn1|]. intros Ek. destruct (G Ek) as (e' & E). exists e'. right. right. exact E.
      * intros t o' [E|[E|Hin]]; try discriminate. destruct (i_obs I _ _ Hin) as [E|(Hk & v & n1 & e1 & E1 & E2 & E3)]; [left; exact E|].
        right. split; [exact Hk|]. exists v, n1, e1. split; [exact E1|]. split; [exact E2|]. right. right. exact E3.
    + destruct P as (Hk & Hd & Hu & v & Hr & Hx & Hf). constructor; cbn.
      * unfold at_pc; cbn. split; [exact Hk|]. split; [exact Hx|]. right. exists v, n. split; [exact Hd|]. split; [exact Hr|]. split; [right; exact Hf|left; reflexivity].
      * exact (i_conts I).
      * intros e1 [E|Hin]; [discriminate|]. destruct (i_gone I _ Hin) as ((n1 & Hn1) & _). now destruct (Hu n1 e1).
      * intros t o' [E|Hin]; [discriminate|]. destruct (i_obs I _ _ Hin) as [E|(_ & v1 & n1 & e1 & E1 & E2 & E3)]; [left; exact E|now destruct (Hu n1 e1)].
  - (* end *) destruct h.
    + destruct P as (Hd & Hs & _). constructor; cbn; [split; [exact Hd|exact Hs]|exact (i_conts I)|exact (i_gone I)|exact (i_obs I)].
    + destruct P as (Hk & Hd & Hu & v & Hr & Hx & Hf). constructor; cbn; [|exact (i_conts I)|exact (i_gone I)|exact (i_obs I)]. unfold at_pc; cbn. split; [exact Hd|].
      exists (Val v). cbn. auto.
  - (* then *) constructor; cbn.
    + exact (i_pc I).
    + congruence.
    + exact (i_gone I).
    + exact (i_obs I).
  - (* then, ready *) refine (@inv_note k (Sys (done s) (res s) (exc s) (conts s) (S (nxt s)) (pc s) (hist s)) _ _ _ _ _); try discriminate.
    constructor; [exact (i_pc I)|exact (i_conts I)|exact (i_gone I)|exact (i_obs I)].
  - (* then, ready, launch fails *) refine (@inv_note k (Sys (done s) (res s) (exc s) (conts s) (S (nxt s)) (pc s) (hist s)) _ _ _ _ _); try discriminate.
    constructor; [exact (i_pc I)|exact (i_conts I)|exact (i_gone I)|exact (i_obs I)].
  - (* observe *) refine (@inv_note k s _ I _ _ _); try discriminate. intros t0 o E. injection E as _ E. exact E.
Qed.
Lemma reach_inv k s : reach k s -> inv k s.
Proof.
  intros Hr. induction Hr as [|s s' Hr IH Hst]; [|exact (step_inv IH Hst)]. constructor; cbn; [|discriminate|tauto|tauto].
  unfold at_pc; cbn. repeat (split; [reflexivity|]). intros n e [].
Qed.
(** A property of each observation and what came before it, that holds when it is made, holds of the whole history *)
Lemma hist_obs k (Q : list event -> Prop) (Hq0 : Q []) (Hq : forall x h, Q h -> (forall t o, x <> EObs t o) -> Q (x :: h))
  (Hqo : forall s t, reach k s -> Q (hist s) -> Q (EObs t (view s) :: hist s)) s : reach k s -> Q (hist s).
Proof.
  intros Hr. induction Hr as [|s s' Hr IH Hst]; [exact Hq0|].
  destruct Hst as [s v Hk Hp|s e Hk Hp|s e Hk Hp|s e Hk Hp|s e Hp|s v Hk Hp|s e Hk Hp|s Hp|s n l h Hp|s n l h e Hp|s h Hp|s Hd0|s Hd0|s e Hd0|s t]; cbn; try (exact IH);
    try (apply Hq; [exact IH|discriminate]).
  - destruct h; cbn; apply Hq; try discriminate; [|exact IH]. apply Hq; [exact IH|discriminate].
  - exact (Hqo _ t Hr IH).
Qed.
Definition stable_or (k : kind) (h : list event) : Prop :=
  forall h1 h2 h3 t o t' o', h = h1 ++ EObs t' o' :: h2 ++ EObs t (Some o) :: h3 ->
  o' = Some o \/ (k = Task /\ exists v n e, o = Val v /\ o' = Some (Exc e) /\ In (EFail n e) (h2 ++ h3)).
Lemma reach_stable k s : reach k s -> stable_or k (hist s).
Proof.
  intros Hr. refine (@hist_obs k (stable_or k) _ _ _ s Hr).
  - intros h1 h2 h3 t o t' o' E. now destruct h1.
  - intros x h IH Hx h1 h2 h3 t o t' o' E. destruct h1 as [|y h1]; [injection E as E _; now destruct (Hx t' o')|]. injection E as _ E. exact (IH _ _ _ _ _ _ _ E).
  - clear s Hr. intros s t0 Hr IH h1 h2 h3 t o t' o' E. destruct h1 as [|y h1]; [|injection E as _ E; exact (IH _ _ _ _ _ _ _ E)].
    injection E as _ E E2. assert (Hin : In (EObs t (Some o)) (hist s)) by (rewrite E2; apply in_or_app; right; left; reflexivity).
    destruct (i_obs (reach_inv Hr) _ _ Hin) as [A|(Hk & v & n & e & A & B & C)]; [left; congruence|]. right. split; [exact Hk|]. exists v, n, e.
    split; [exact A|]. split; [congruence|]. rewrite E2 in C. apply in_app_or in C. apply in_or_app. destruct C as [C|[C|C]]; [left; exact C|discriminate|right; exact C].
Qed.
Definition honest_or (k : kind) (h : list event) : Prop :=
  forall h1 h2 t o, h = h1 ++ EObs t (Some o) :: h2 -> In (EFun o) h2 \/ (k = Task /\ exists n e, o = Exc e /\ In (EFail n e) h2).
Lemma reach_honest k s : reach k s -> honest_or k (hist s).
Proof.
  intros Hr. refine (@hist_obs k (honest_or k) _ _ _ s Hr).
  - intros h1 h2 t o E. now destruct h1.
  - intros x h IH Hx h1 h2 t o E. destruct h1 as [|y h1]; [injection E as E _; now destruct (Hx t (Some o))|]. injection E as _ E. exact (IH _ _ _ _ E).
  - clear s Hr. intros s t0 Hr IH h1 h2 t o E. destruct h1 as [|y h1]; [|injection E as _ E; exact (IH _ _ _ _ E)].
    injection E as _ Ev <-. pose proof (reach_inv Hr) as I. assert (Hd : done s = true) by (unfold view in Ev; destruct (done s); [reflexivity|discriminate]).
    assert (P : (exists o1, In (EFun o1) (hist s) /\ (view s = Some o1 \/ (k = Task /\ exists v n e, o1 = Val v /\ view s = Some (Exc e) /\ In (EFail n e) (hist s))))).
    { pose proof (i_pc I) as P. unfold at_pc in P. destruct (pc s) as [| |l h|e| |e].
      - destruct P as (A & _). congruence.
      - destruct P as (_ & A & _). congruence.
      - destruct h; [destruct P as (_ & A & _); exact (@view_settled _ _ Hd A)|]. destruct P as (A & _ & _ & v & B & C & D). exists (Val v). split; [exact D|]. left. unfold view. now rewrite Hd, B, C.
      - destruct P as (A & B & [(C & _)|(v & n & _ & C & D & _)]); [congruence|]. exists (Val v). split; [exact D|]. left. unfold view. now rewrite Hd, B, C.
      - destruct P as (_ & A); exact (@view_settled _ _ Hd A).
      - destruct P as (_ & A); exact (@view_settled _ _ Hd A). }
    destruct P as (o1 & Hf & [A|(Hk & v & n & e & A & B & C)]); [left; congruence|]. right. split; [exact Hk|]. exists n, e. split; [congruence|exact C].
Qed.
