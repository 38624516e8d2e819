(** * Failures after a thread has been started end the program *)
From Coq Require Import List Arith Bool Lia.
From Verif Require Import RC_Spec RC_Inv.
Import ListNotations.
Set Implicit Arguments.

Definition simple (i : instr) : Prop := match i with ILocalDtor | IClose | IQueueDtor | IThreadsDtor => True | _ => False end.
Record doomed (k : kind) (s : sys) : Prop := {
  d_free : forall w, joined s w = false ;
  d_silent : ~ In EThrown (hist s) /\ ~ In EBuilt (hist s) ;
  d_at : ph s = PTerm \/ (ph s = PThrow /\ ((loc s <> None /\ code s = unwind k) \/ (thr s <> [] /\ In IThreadsDtor (code s) /\ Forall simple (code s))))
}.
Lemma destroy_term s l s' : l <> [] -> (forall w, joined s w = false) -> destroy true s l s' = goto s PTerm [] [ETerm].
Proof. intros Hl J. destruct l as [|w l]; [congruence|]. unfold destroy. cbn. now rewrite J. Qed.
Lemma doomed_term k s : (forall w, joined s w = false) -> ~ In EThrown (hist s) /\ ~ In EBuilt (hist s) -> doomed k (goto s PTerm [] [ETerm]).
Proof. intros J (N1 & N2). constructor; cbn; [exact J|split; (intros [E|H]; [discriminate|auto])|left; reflexivity]. Qed.
Lemma unwind_simple k : Forall simple (unwind k).
Proof. destruct k; cbn; repeat constructor. Qed.
Lemma step_doomed k s s' : doomed k s -> step true k s s' -> doomed k s'.
Proof.
  intros D Hst. pose proof (d_at D) as A. pose proof (d_free D) as J. pose proof (d_silent D) as N.
  destruct Hst as [s i c Hp Hc Hg|s i c Hp Hc Hg|s Hp Hc|s Hp Ho|s Hp Hc|s Hp Hc|s w Hp Ho Hr Hq|s w Hp Hr He].
  - destruct A as [A|(A & B)]; [destruct Hp as [Hp|[Hp|Hp]]; congruence|]. destruct B as [(Hl & Eu)|(Ht & Hin & Hs)].
    + rewrite Eu in Hc. unfold unwind in Hc. injection Hc as <- _. cbn [exec]. rewrite destroy_term; [exact (@doomed_term k s J N)| |exact J]. destruct (loc s); [discriminate|congruence].
    + rewrite Hc in Hs, Hin. apply Forall_inv in Hs as Hi. apply Forall_inv_tail in Hs.
      assert (K : forall s1, joined s1 = joined s -> hist s1 = hist s -> ph s1 = ph s -> thr s1 = thr s -> code s1 = c -> i <> IThreadsDtor -> doomed k s1).
      { intros s1 E1 E2 E3 E4 E5 Hne. constructor; [rewrite E1; exact J|rewrite E2; exact N|]. right. rewrite E3, E4, E5. split; [exact A|]. right. split; [exact Ht|].
        split; [|exact Hs]. destruct Hin as [E|H]; [congruence|exact H]. }
      destruct i; try contradiction; cbn [exec].
      * unfold destroy. destruct (true && _); [exact (@doomed_term k s J N)|]. now apply K.
      * now apply K.
      * rewrite destroy_term; [exact (@doomed_term k s J N)|exact Ht|exact J].
      * now apply K.
  - destruct A as [A|(A & _)]; congruence.
  - destruct A as [A|(A & _)]; congruence.
  - destruct A as [A|(A & _)]; congruence.
  - destruct A as [A|(_ & [(_ & E)|(_ & Hin & _)])]; [congruence|rewrite E in Hc; destruct k; discriminate|rewrite Hc in Hin; destruct Hin].
  - destruct A as [A|(A & _)]; congruence.
  - constructor; cbn; [exact J|destruct N as (N1 & N2); split; (intros [E|H]; [discriminate|auto])|exact A].
  - constructor; cbn; [exact J|exact N|exact A].
Qed.
Lemma late_dec h : (exists c, In (EFail (S c)) h) \/ ~ (exists c, In (EFail (S c)) h).
Proof.
  induction h as [|x h IH]; [right; intros (c & [])|]. destruct IH as [(c & H)|H]; [left; exists c; now right|].
  destruct x as [w|[|c]| | | | |w]; try (right; intros (c0 & [E|A]); [discriminate|apply H; now exists c0]). left. exists c. now left.
Qed.
Lemma late_doomed k s : reach true k s -> late_failure s -> doomed k s.
Proof.
  intros Hr. induction Hr as [|s s' Hr IH Hst]; [intros (c & [])|]. intros Hl.
  destruct (late_dec (hist s)) as [L|L]; [exact (step_doomed (IH L) Hst)|]. pose proof (reach_inv Hr L) as I. destruct Hl as (c & Hin).
  assert (K : forall l, hist s' = l ++ hist s -> In (EFail (S c)) l) by (intros l E; rewrite E in Hin; apply in_app_or in Hin; destruct Hin as [A|A]; [exact A|destruct L; now exists c]).
  destruct Hst as [s i c0 Hp Hc Hg|s i c0 Hp Hc Hg|s Hp Hc|s Hp Ho|s Hp Hc|s Hp Hc|s w Hp Ho Hr0 Hq|s w Hp Hr0 He].
  - exfalso. destruct i; cbn [exec hist] in *; try (now destruct (K [] eq_refl)); try (destruct (K [_] eq_refl) as [E|[]]; discriminate); unfold destroy in *; destruct (true && _); cbn [goto hist] in *;
      first [now destruct (K [] eq_refl)|destruct (K [ETerm] eq_refl) as [A|[]]; discriminate].
  - cbn in K. destruct (K [EFail (cnt s)] eq_refl) as [E|[]]. injection E as E. pose proof (v_at I) as V. unfold at_phase in V. rewrite Hp in V. destruct V as (V & _).
    constructor; cbn [goto joined hist ph loc thr code app].
    + apply (v_free I); rewrite Hp; discriminate.
    + split; (intros [E1|H]; [discriminate|]); [pose proof (v_thrown I H); congruence|]. pose proof (v_built I H) as X. rewrite Hp in X. destruct X as [X|[X|X]]; discriminate.
    + right. split; [reflexivity|].
      destruct V as [(_ & _ & A & _)|[(m & Hm & Eb & Ec & Et & El & Ecap)|(m & Hm & Eb & Ec & Et & El & Ecap)]]; [lia| |].
      * right. assert (Hk : exists n, k = Pool n \/ k = Sched n).
        { destruct m as [|m]; [rewrite Eb in Hc; discriminate|]. destruct k as [n|n| | | |]; [exists n; auto|exists n; auto| | | |]; cbn in *; lia. }
        split; [rewrite Et, <- Ec, E; discriminate|]. split; [destruct Hk as (n & [->| ->]); cbn; auto|apply unwind_simple].
      * left. split; [congruence|reflexivity].
  - exfalso. destruct (K [EBuilt] eq_refl) as [A|[]]; discriminate.
  - destruct (K [] eq_refl).
  - exfalso. destruct (K [EThrown] eq_refl) as [A|[]]; discriminate.
  - exfalso. destruct (K [EDestroyed] eq_refl) as [A|[]]; discriminate.
  - exfalso. destruct (K [EDead w] eq_refl) as [A|[]]; discriminate.
  - destruct (K [] eq_refl).
Qed.
