(** * call_once on Windows: how many steps a call takes *)
From Verif Require Export WO_Proofs.
Set Implicit Arguments.

Definition rank (complete : bool) (x : thr) : nat :=
  match t_pc x with
  | PIdle => 0
  | PClose _ => 1
  | PSet | PBackSet => 2
  | PMake | PBackOpen | PWait => 3
  | PMany | PBack => 4
  | PComplete => 5
  | PCommit => 6
  | PBody => 7
  | PReset => 8
  | POpen => 9
  | PEnter => if t_counted x then 10 else 15
  | PLoop => if complete then 2 else if t_counted x then 11 else 16
  | PCreate => 12
  | PCheck => 13
  | PCount => 14
  end.
Definition completed (s : sys) : bool := match st s with SComplete => true | _ => false end.
Definition rank_of (s : sys) (t : nat) : nat := match nth_error (thrs s) t with Some x => rank (completed s) x | None => 0 end.
Definition total_rank (s : sys) : nat := total (rank (completed s)) (thrs s).

Lemma rank_mono : forall x, rank true x <= rank false x.
Proof. intros [p c h]. destruct p, c; cbn; lia. Qed.
Lemma rank_max : forall b x, rank b x <= 16.
Proof. intros b [p c h]. destruct p, c, b; cbn; lia. Qed.
Lemma rank_max_complete : forall x, rank true x <= 15.
Proof. intros [p c h]. destruct p, c; cbn; lia. Qed.

(** The event is signalled only when the function has completed, unless it has thrown. *)
Definition quiet (s : sys) : Prop := throws (hist s) = 0 ->
  (sig s = true -> st s = SComplete) /\
  forall t x, nth_error (thrs s) t = Some x -> match t_pc x with PBack | PBackOpen | PBackSet => False | _ => True end.

Lemma throws_app : forall a b, throws (a ++ b) = throws a + throws b.
Proof. induction a as [|e a IH]; intros b; [reflexivity|]. cbn. rewrite IH. destruct e; cbn; lia. Qed.

(** Every step is a [put]. *)
Inductive step_of (s : sys) (t : nat) (x : thr) : label -> sys -> Prop :=
| so l y f n g ev s' : put s t y f n g ev = Some s' ->
    match l with
    | LCall u => u = t /\ t_pc x = PIdle /\ t_pc y = PLoop /\ f = st s /\ ev = [ECall t] /\ g = sig s /\ t_counted y = false
    | LRun u => u = t /\
        (f = st s \/ (st s = SFree /\ f = SRunning /\ t_pc x = PEnter) \/ (f = SComplete /\ t_pc x = PComplete) \/ (f = SFree /\ t_pc x = PBack)) /\
        (t_pc x = PWait /\ sig s = true /\ t_pc y = PLoop /\ f = st s \/
         rank (match f with SComplete => true | _ => false end) y < rank (completed s) x) /\
        (g = true -> g = sig s \/ t_pc x = PBackSet \/ t_pc x = PSet) /\ throws ev = 0 /\
        (match t_pc y with PBack => False | PBackOpen => t_pc x = PBack | PBackSet => t_pc x = PBackOpen | _ => True end)
    | LEnd u b => u = t /\ f = st s /\ g = sig s /\ t_pc x = PBody /\ ev = [if b then EThrow t else EEnd t] /\ t_pc y = (if b then PBack else PCommit)
    end -> step_of s t x l s'.

Lemma step_cases : forall s l s', inv s -> exec s l = Some s' -> exists t x, nth_error (thrs s) t = Some x /\ step_of s t x l s'.
Proof.
  intros s l s' I H. destruct l as [u|u|u b]; cbn in H; destruct (nth_error (thrs s) u) as [[p c h]|] eqn:Hx; try discriminate; exists u, (Thr p c h).
  all: split; [exact Hx|].
  - unfold call in H. cbn [t_pc] in H. destruct p; try discriminate. econstructor; [exact H|]. cbn. repeat split; auto.
  - pose proof (i_shape I _ Hx) as Sh. pose proof (i_skip I _ Hx) as Sk. unfold run, goto, open, create in H. cbn [t_pc t_counted t_handle] in H.
    destruct p; try discriminate; unfold shape in Sh; cbn [t_pc t_counted t_handle late] in Sh, Sk; try specialize (Sk eq_refl).
    all: repeat (match type of H with context [match ?v with _ => _ end] => match v with context [match _ with _ => _ end] => fail 1 | _ => destruct v eqn:? end end; try discriminate).
    all: econstructor; [exact H|]; unfold completed; cbn [t_pc t_counted t_handle throws].
    all: try (match goal with E : st _ = _ |- _ => rewrite E end).
    all: split; [reflexivity|]; split; [auto 6|]; split; [first [left; split; [reflexivity|]; auto; fail|right; unfold rank; cbn [t_pc t_counted]; repeat match goal with |- context [match ?v with _ => _ end] => match v with context [match _ with _ => _ end] => fail 1 | _ => destruct v eqn:? end end; try lia]|].
    all: try congruence; try discriminate.
    all: try (split; [auto|split; auto]).
    all: try discriminate.
    all: try (destruct Sh; congruence).
  - unfold finish in H. cbn [t_pc] in H. destruct p; try discriminate. econstructor; [exact H|]. cbn. repeat split; auto.
Qed.

Lemma runner_running : forall s t x, inv s -> nth_error (thrs s) t = Some x -> cR x = 1 -> st s = SRunning.
Proof. intros s t x I Hx Hc. pose proof (total_ge cR (thrs s) t Hx). rewrite (i_run I) in H. destruct (st s); cbn in H; auto; lia. Qed.

Lemma completed_stays : forall s l s', inv s -> exec s l = Some s' -> completed s = true -> completed s' = true.
Proof.
  intros s l s' I H Hc. destruct (step_cases _ I H) as (t & x & Hx & Hs). destruct Hs as [l y f n g ev s' Hp Hl]. unfold put in Hp. injection Hp as <-.
  unfold completed in *. cbn [st]. destruct (st s) eqn:Es; try discriminate.
  destruct l as [u|u|u b].
  - destruct Hl as (_ & _ & _ & -> & _). reflexivity.
  - destruct Hl as (_ & [->|[(E & _)|[(-> & _)|(-> & E)]]] & _); try reflexivity; try congruence.
    assert (cR x = 1) by (unfold cR; now rewrite E). pose proof (runner_running _ I Hx H0). congruence.
  - destruct Hl as (_ & -> & _). reflexivity.
Qed.

Lemma quiet_step : forall s l s', inv s -> quiet s -> exec s l = Some s' -> quiet s'.
Proof.
  intros s l s' I Q H Ht'. pose proof (completed_stays _ I H) as Hmono.
  destruct (step_cases _ I H) as (t & x & Hx & Hs). destruct Hs as [l y f n g ev s' Hp Hl]. unfold put in Hp. injection Hp as <-.
  change (throws (ev ++ hist s) = 0) in Ht'. rewrite throws_app in Ht'.
  destruct (Q ltac:(lia)) as [Q1 Q2]. pose proof (Q2 _ _ Hx) as Q3. unfold completed in Hmono. cbn [st] in Hmono. split; cbn [sig st thrs].
  - intros Hg. assert (K : st s = SComplete -> f = SComplete) by (intros E; rewrite E in Hmono; specialize (Hmono eq_refl); destruct f; congruence).
    destruct l as [u|u|u b].
    + destruct Hl as (_ & _ & _ & _ & _ & -> & _). auto.
    + destruct Hl as (_ & _ & _ & Hg' & _). destruct (Hg' Hg) as [E|[E|E]].
      * rewrite <- E in Q1. auto.
      * rewrite E in Q3. destruct Q3.
      * apply K. eapply i_skip; eauto. now rewrite E.
    + destruct Hl as (_ & _ & -> & _). auto.
  - intros u z Hu. destruct (Nat.eq_dec t u) as [->|Hne]; [|rewrite nth_set_other in Hu by assumption; exact (Q2 _ _ Hu)].
    rewrite (nth_set_same _ _ _ Hx) in Hu. injection Hu as <-. destruct l as [v|v|v b].
    + destruct Hl as (_ & _ & -> & _). exact Logic.I.
    + destruct Hl as (_ & _ & _ & _ & _ & E). destruct (t_pc y); auto; rewrite E in Q3; exact Q3.
    + destruct Hl as (_ & _ & _ & _ & -> & ->). destruct b; [|exact Logic.I]. cbn in Ht'. lia.
Qed.
Lemma quiet_reach : forall n s, reach n s -> quiet s.
Proof.
  induction 1 as [|s l s' H IH Hs].
  - intros _. split; [discriminate|]. intros t x Hx. cbn in Hx. apply nth_error_In, repeat_spec in Hx. now subst.
  - eapply quiet_step; eauto. eapply inv_reach; eauto.
Qed.

Definition is_call_of (t : nat) (l : label) : bool := match l with LCall u => u =? t | _ => false end.

Lemma rank_drops : forall s l s' t, inv s -> quiet s -> exec s l = Some s' -> throws (hist s') = 0 -> is_call_of t l = false ->
  rank_of s' t + (if is_step_of t l then 1 else 0) <= rank_of s t.
Proof.
  intros s l s' t I Q H Ht Hc. pose proof (completed_stays _ I H) as Hmono.
  destruct (step_cases _ I H) as (u & x & Hx & Hs). destruct Hs as [l y f n g ev s' Hp Hl]. unfold put in Hp. injection Hp as <-.
  change (throws (ev ++ hist s) = 0) in Ht. rewrite throws_app in Ht. destruct (Q ltac:(lia)) as [Q1 Q2].
  unfold rank_of. cbn [thrs]. set (s1 := Sys _ _ _ _ _) in *.
  assert (Hrr : forall z, rank (completed s1) z <= rank (completed s) z).
  { intros z. destruct (completed s); [rewrite Hmono by reflexivity; lia|]. destruct (completed s1); [apply rank_mono|lia]. }
  destruct (Nat.eq_dec u t) as [->|Hne].
  - rewrite (nth_set_same _ _ _ Hx), Hx. destruct l as [v|v|v b].
    + destruct Hl as (-> & _). cbn in Hc. rewrite Nat.eqb_refl in Hc. discriminate.
    + destruct Hl as (-> & Hf & Hr & _). cbn [is_step_of]. rewrite Nat.eqb_refl. destruct Hr as [(E1 & E2 & E3 & E4)|Hr].
      * assert (Hs : completed s = true) by (unfold completed; now rewrite (Q1 E2)). rewrite Hmono, Hs by exact Hs.
        unfold rank. rewrite E1, E3. lia.
      * unfold completed at 1. cbn [st s1]. lia.
    + destruct Hl as (-> & _ & _ & E & _ & E'). cbn [is_step_of]. unfold rank. rewrite E, E'. destruct b; lia.
  - rewrite nth_set_other by assumption. assert (Hz : is_step_of t l = false).
    { destruct l as [v|v|v b]; [reflexivity| |reflexivity]. destruct Hl as (-> & _). cbn. now apply Nat.eqb_neq. }
    rewrite Hz. destruct (nth_error (thrs s) t) as [z|]; [|lia]. specialize (Hrr z). lia.
Qed.

Lemma runl_throws : forall ls s s', runl s ls = Some s' -> inv s -> throws (hist s) <= throws (hist s').
Proof.
  induction ls as [|l ls IH]; intros s s' H I; cbn in H; [injection H as <-; lia|]. destruct (exec s l) as [s1|] eqn:E; [|discriminate].
  specialize (IH _ _ H (inv_step _ I E)). destruct (step_cases _ I E) as (t & x & Hx & Hs). destruct Hs as [l y f n g ev s1 Hp Hl].
  unfold put in Hp. injection Hp as <-. change (hist _) with (ev ++ hist s) in IH at 1. rewrite throws_app in IH. lia.
Qed.

Lemma bounded_steps : forall ls s s' t, inv s -> quiet s -> runl s ls = Some s' -> throws (hist s') = 0 -> (forall l, In l ls -> l <> LCall t) ->
  steps_of t ls <= rank_of s t.
Proof.
  induction ls as [|l ls IH]; intros s s' t I Q H Ht Hn; [cbn; lia|]. cbn in H. destruct (exec s l) as [s1|] eqn:E; [|discriminate].
  assert (I1 := inv_step _ I E). assert (Q1 := quiet_step _ I Q E). specialize (IH _ _ t I1 Q1 H Ht ltac:(intros; apply Hn; right; assumption)).
  pose proof (@runl_throws _ _ _ H I1). assert (Hc : is_call_of t l = false).
  { destruct l as [u|u|u b]; auto. cbn. destruct (u =? t) eqn:Eu; [|reflexivity]. apply Nat.eqb_eq in Eu. subst. elim (Hn (LCall t)); [left; reflexivity|reflexivity]. }
  pose proof (rank_drops _ t I Q E ltac:(lia) Hc) as G. unfold steps_of in *. cbn [filter]. destruct (is_step_of t l); cbn [length]; lia.
Qed.

(** Without exceptions a call takes at most 16 steps. *)
Lemma waits_asleep : forall n s ls s' t, reach n s -> runl s ls = Some s' -> throws (hist s') = 0 -> (forall l, In l ls -> l <> LCall t) -> steps_of t ls <= 16.
Proof.
  intros n s ls s' t H Hr Ht Hn. pose proof (bounded_steps _ (inv_reach H) (quiet_reach H) Hr Ht Hn) as G.
  unfold rank_of in G. destruct (nth_error (thrs s) t) as [x|]; [|lia]. pose proof (rank_max (completed s) x). lia.
Qed.

(** ** After the function has completed *)
Lemma total_drops : forall s l s', inv s -> exec s l = Some s' -> completed s = true -> no_call l -> total_rank s' < total_rank s.
Proof.
  intros s l s' I H Hc Hn. pose proof (completed_stays _ I H Hc) as Hc'. unfold total_rank. rewrite Hc, Hc'.
  destruct (step_cases _ I H) as (t & x & Hx & Hs). destruct Hs as [l y f n g ev s' Hp Hl]. unfold put in Hp. injection Hp as <-. cbn [thrs].
  pose proof (@total_set (rank true) _ _ _ y Hx) as G. assert (rank true y < rank true x); [|lia].
  unfold completed in Hc'. cbn [st] in Hc'. destruct l as [u|u|u b].
  - destruct Hn.
  - destruct Hl as (_ & _ & [(E1 & _ & E3 & _)|Hr] & _); [unfold rank; rewrite E1, E3; lia|]. now rewrite Hc, Hc' in Hr.
  - destruct Hl as (_ & _ & _ & E & _ & E'). unfold rank. rewrite E, E'. destruct b; lia.
Qed.
Lemma total_bound : forall f k l, (forall x, f x <= k) -> total f l <= k * length l.
Proof. intros f k l H. induction l as [|x l IH]; cbn; [lia|]. specialize (H x). lia. Qed.

(** A call that has returned has seen the function completed. *)
Record seen (s : sys) : Prop := { sn : forall t, In (ERet t RRan) (hist s) \/ In (ERet t RSkipped) (hist s) -> completed s = true;
                                  sp : forall t x, nth_error (thrs s) t = Some x -> t_pc x = PClose RRan -> completed s = true }.
Lemma seen_step : forall s l s', inv s -> seen s -> exec s l = Some s' -> seen s'.
Proof.
  intros s l s' I S H. pose proof (completed_stays _ I H) as Hmono. pose proof H as H0.
  destruct l as [t|t|t b]; cbn in H; destruct (nth_error (thrs s) t) as [x|] eqn:Hx; try discriminate.
  all: pose proof (i_skip I _ Hx) as Sk; pose proof (sp S _ Hx) as Sp.
  all: unfold call, finish, run, goto, open, create, put in H.
  all: repeat (match type of H with context [match ?v with _ => _ end] => match v with context [match _ with _ => _ end] => fail 1 | _ => destruct v eqn:? end end; try discriminate).
  all: injection H as <-.
  all: split; cbn [hist thrs app].
  all: try (intros u Hu; apply Hmono; destruct Hu as [Hu|Hu]; [apply (sn S u); left|apply (sn S u); right]; (destruct Hu as [Hu|Hu]; [discriminate|exact Hu]); fail).
  all: try (intros u Hu; apply Hmono; apply (sn S u); exact Hu; fail).
  all: try (intros u z Hu Hz; destruct (Nat.eq_dec t u) as [->|Hne];
      [rewrite (nth_set_same _ _ _ Hx) in Hu; injection Hu as <-; cbn in Hz; try discriminate; unfold completed; cbn [st]; try (rewrite (Sk eq_refl); reflexivity)
      |rewrite nth_set_other in Hu by assumption; apply Hmono; eapply sp; eauto]; fail).
  intros u Hu. apply Hmono. destruct Hu as [[Hu|Hu]|[Hu|Hu]].
  - injection Hu as _ ->. apply Sp. reflexivity.
  - apply (sn S u). left. exact Hu.
  - injection Hu as _ ->. unfold completed. now rewrite (Sk eq_refl).
  - apply (sn S u). right. exact Hu.
Qed.
Lemma seen_reach : forall n s, reach n s -> seen s.
Proof.
  induction 1 as [|s l s' H IH Hs].
  - split; [intros t [[]|[]]|]. intros t x Hx. cbn in Hx. apply nth_error_In, repeat_spec in Hx. subst. discriminate.
  - eapply seen_step; eauto. eapply inv_reach; eauto.
Qed.

Lemma reach_length : forall n s, reach n s -> length (thrs s) = n.
Proof.
  intros n s H. induction H as [|s l s' H IH Hs]; [apply repeat_length|]. rewrite <- IH.
  destruct (step_cases _ (inv_reach H) Hs) as (t & x & Hx & Hp). destruct Hp as [l y f m g ev s' Hp _]. unfold put in Hp. injection Hp as <-. apply length_set.
Qed.

(** Once a call has returned normally, whatever the schedule, all others do so within 15 steps each. *)
Lemma finishes : forall n s t ls s', reach n s -> In (ERet t RRan) (hist s) \/ In (ERet t RSkipped) (hist s) ->
  (forall l, In l ls -> no_call l) -> runl s ls = Some s' -> length ls <= 15 * n.
Proof.
  intros n s t ls s' H Hr Hn Hls. pose proof (sn (seen_reach H) _ Hr) as Hc.
  assert (G : length ls <= total_rank s).
  { assert (I := inv_reach H). clear H Hr. revert s I Hc Hls. induction ls as [|l ls IH]; intros s I Hc Hls; cbn; [lia|]. cbn in Hls.
    destruct (exec s l) as [s1|] eqn:E; [|discriminate].
    pose proof (total_drops _ I E Hc (Hn l (or_introl eq_refl))). specialize (IH ltac:(intros; apply Hn; right; assumption) s1 (inv_step _ I E) (completed_stays _ I E Hc) Hls). lia. }
  unfold total_rank in G. rewrite Hc in G. pose proof (total_bound _ (thrs s) rank_max_complete). rewrite (reach_length H) in H0. lia.
Qed.
Lemma all_return : forall n s t u, reach n s -> In (ERet t RRan) (hist s) \/ In (ERet t RSkipped) (hist s) -> at_rest s -> place_of u (hist s) = Outside.
Proof.
  intros n s t u H Hr Ha. pose proof (sn (seen_reach H) _ Hr) as Hc. assert (I := inv_reach H).
  destruct (place_of u (hist s)) eqn:E; [reflexivity| | | |]; exfalso; destruct (@not_left_behind n s u H Ha ltac:(congruence)) as (v & Hv);
    destruct (in_function _ I Hv) as (x & Hx & Px); assert (Hcr : cR x = 1) by (unfold cR; now rewrite Px); pose proof (runner_running _ I Hx Hcr) as Hrun;
    unfold completed in Hc; rewrite Hrun in Hc; discriminate.
Qed.
