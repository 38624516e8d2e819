(** * Interruption, sleeping and joining on Windows: proofs *)
From Verif Require Import WI_Spec.
Set Implicit Arguments.

Lemma nth_modify l t f u : nth_error (modify l t f) u = if (u =? t)%nat then option_map f (nth_error l u) else nth_error l u.
Proof.
  revert t u; induction l as [|y l IH]; intros [|t] [|u]; cbn; auto. destruct (u =? t)%nat; reflexivity.
Qed.
Lemma length_modify l t f : length (modify l t f) = length l.
Proof. revert t; induction l as [|y l IH]; intros [|t]; cbn; auto. Qed.

(** ** One thread *)
Fixpoint stk (l : list bool) : Prop := match l with [] => True | w :: l' => w = (length l' =? 0)%nat /\ stk l' end.

Definition wf (k : kind) : Prop := k_obj k = None -> k_dl k <> Never.
Definition okc (n : Z) (k : kind) (c : option Z) : Prop :=
  match k_dl k with Never => c = None | Mono d => c = Some d | Real _ => exists z, c = Some z /\ z <= n + POLL end.
Definition okh (t : nat) (k : kind) (h : list event) (w : option nat) : Prop :=
  match w with
  | Some j => k_obj k = Some j
  | None => match k_obj k with None => True | Some j => exists u, u <> t /\ In (ERel j u) h end
  end.
Definition okw (k : kind) (x : thr) (c : option Z) (ip tm : bool) (due : option Z) : Prop :=
  ip = k_ipt k && (has x && en x) /\
  (tm = true -> exists d u, c = Some d /\ due = Some u /\ d <= u) /\ (c = None -> tm = false /\ due = None).

Definition okpc (boost : list bool) (n : Z) (h : list event) (t : nat) (x : thr) : Prop :=
  match t_pc x with
  | PIdle | PEnd => doing t h = Nothing
  | PTop k => doing t h = Waits k /\ wf k
  | PGet k c => doing t h = Waits k /\ wf k /\ okc n k c /\ k_obj k <> None
  | PNative k c => doing t h = Waits k /\ wf k /\ okc n k c /\ exists j, k_obj k = Some j /\ nth j boost false = true /\ ~ In (ERel j t) h
  | PEnter k w c => doing t h = Waits k /\ wf k /\ okc n k c /\ okh t k h w
  | PWait k w c ip tm due | PAgain k w c ip tm due =>
      doing t h = Waits k /\ wf k /\ okc n k c /\ okh t k h w /\ okw k x c ip tm due
  | PDone k b =>
      doing t h = Waits k /\ wf k /\
      if b then exists j, k_obj k = Some j /\ In (EFin j) h
      else match k_dl k with Never => False | Mono d => d <= n | Real _ => True end
  | PIntr k => doing t h = Waits k /\ k_ipt k = true /\ has x = true /\ en x = true /\ intr x = true
  | PPoint => doing t h = AtPoint /\ has x = true /\ en x = true /\ intr x = true
  end.

Record okt (boost : list bool) (n : Z) (h : list event) (t : nat) (x : thr) : Prop := Okt {
  o_has : has x = nth t boost false;
  o_intr : intr x = pending t h;
  o_dis : length (dis x) = disabled t h;
  o_en : has x = true -> en x = (length (dis x) =? 0)%nat /\ stk (dis x);
  o_pc : okpc boost n h t x;
  o_end : t_pc x = PEnd <-> In (EFin t) h;
  o_jn : jn x = false -> nth t boost false = false \/ exists u, In (ERel t u) h;
  o_kept : jn x = true -> nth t boost false = true /\ forall u, ~ In (ERel t u) h
}.

Definition subj (e : event) : option nat :=
  match e with
  | EWait t _ _ _ | ERet t _ _ _ _ | EThrow t | EInvalid t | EDeadlock t | EPoint t | EReq t | EDis t | EUndis t | EFin t => Some t
  | _ => None
  end.

Lemma frame e u h : subj e <> Some u ->
  pending u (e :: h) = pending u h /\ disabled u (e :: h) = disabled u h /\ doing u (e :: h) = doing u h /\ (In (EFin u) (e :: h) <-> In (EFin u) h).
Proof.
  intros H. destruct e; cbn in *;
    try match goal with |- context [(?a =? u)%nat] => destruct (a =? u)%nat eqn:E; [apply Nat.eqb_eq in E; subst; congruence|] end;
    repeat (split; [reflexivity|]); (split; [intros [He|He]; [congruence|exact He]|auto]).
Qed.

Lemma okc_later n n' k c : n <= n' -> okc n k c -> okc n' k c.
Proof. unfold okc. intros H. destruct (k_dl k); auto. intros (z & E & Hz). exists z. split; [exact E|lia]. Qed.
Lemma okh_cons t k e h w : okh t k h w -> okh t k (e :: h) w.
Proof. unfold okh. destruct w; auto. destruct (k_obj k); auto. intros (u & H & Hi). exists u. cbn. auto. Qed.
Lemma later boost n n' h t x : n <= n' -> okt boost n h t x -> okt boost n' h t x.
Proof.
  intros Hn [H1 H2 H3 H4 H5 H6 H7]. split; auto. unfold okpc in *.
  destruct (t_pc x); intuition eauto using okc_later. destruct b; [assumption|]. destruct (k_dl k); auto. lia.
Qed.

Definition native (x : thr) : Prop := match t_pc x with PNative _ _ => True | _ => False end.
(** event e does not concern thread t *)
Definition foreign (t : nat) (x : thr) (e : event) : Prop :=
  subj e <> Some t /\ (forall j, e = ERel j t -> ~ native x) /\ (forall u, e = ERel t u -> jn x = false).

Lemma okt_cons boost n h t x e : foreign t x e -> okt boost n h t x -> okt boost n (e :: h) t x.
Proof.
  intros (Hs & Hn & Hj) [H1 H2 H3 H4 H5 H6 H7 H8]. destruct (frame e h Hs) as (F1 & F2 & F3 & F4). split; auto.
  - congruence.
  - congruence.
  - unfold okpc, native in *. rewrite F3. destruct (t_pc x); intuition eauto using okh_cons.
    + destruct H10 as (j & E & Hb & Hi). exists j. split; [exact E|]. split; [exact Hb|]. intros [He|Hi']; [|auto]. exact (Hn j He I).
    + destruct b; [|assumption]. destruct H9 as (j & E & Hi). exists j. split; [exact E|now right].
  - rewrite F4. exact H6.
  - intros Hf. destruct (H7 Hf) as [E|[u Hu]]; [now left|right; exists u; now right].
  - intros Ht. destruct (H8 Ht) as [E Hu]. split; [exact E|]. intros u [He|Hi]; [|exact (Hu u Hi)]. specialize (Hj u He). congruence.
Qed.
Lemma okt_app boost n h t x ev : Forall (foreign t x) ev -> okt boost n h t x -> okt boost n (ev ++ h) t x.
Proof. induction 1; cbn; auto. intros Hx. apply okt_cons; auto. Qed.

Record inv (boost : list bool) (s : sys) : Prop := Inv {
  i_len : length (thrs s) = length boost;
  i_thr : forall t x, nth_error (thrs s) t = Some x -> okt boost (now s) (hist s) t x;
  i_int : interruptions_ok boost (hist s);
  i_ret : returns_ok (hist s);
  i_tm : forall t k n r, In (EWait t k n r) (hist s) -> n <= now s
}.

Lemma inv_init boost n r : inv boost (init boost n r).
Proof.
  split; cbn; auto.
  - apply map_length.
  - intros t x Hx. rewrite nth_error_map in Hx. destruct (nth_error boost t) as [b|] eqn:E; [|discriminate]. injection Hx as <-.
    assert (Hb : nth t boost false = b) by (apply nth_error_nth; exact E).
    split; cbn; auto.
    + split; [discriminate|tauto].
    + intros ->. now left.
    + intros ->. auto.
  - tauto.
Qed.

(** ** A step of thread t that changes only itself *)
(** Its events are about t, and release no object *)
Definition about (t : nat) (e : event) : Prop := (subj e = Some t \/ subj e = None) /\ forall i u, e <> ERel i u.
Lemma about_foreign t u x e : about t e -> u <> t -> foreign u x e.
Proof. intros [H1 H2] Hu. split; [destruct H1 as [-> | ->]; congruence|]. split; intros i E; exfalso; exact (H2 _ _ E). Qed.

Lemma inv_upd boost s t x f ev :
  inv boost s -> nth_error (thrs s) t = Some x -> Forall (about t) ev ->
  okt boost (now s) (ev ++ hist s) t (f x) ->
  interruptions_ok boost (ev ++ hist s) -> returns_ok (ev ++ hist s) ->
  (forall t k n r, In (EWait t k n r) ev -> n <= now s) ->
  inv boost (upd s t f ev).
Proof.
  intros [H1 H2 H3 H4 H5] Hx Hev Hok Hi Hr Ht. unfold upd. split; cbn; auto.
  - now rewrite length_modify.
  - intros u y Hy. rewrite nth_modify in Hy. destruct (u =? t)%nat eqn:E.
    + apply Nat.eqb_eq in E. subst. rewrite Hx in Hy. cbn in Hy. injection Hy as <-. exact Hok.
    + apply Nat.eqb_neq in E. apply okt_app; auto. eapply Forall_impl; [|exact Hev]. intros e He. eapply about_foreign; eauto.
  - intros t' k n r Hin. apply in_app_iff in Hin. destruct Hin; eauto.
Qed.

Lemma goto_inv boost s t x p : inv boost s -> nth_error (thrs s) t = Some x ->
  t_pc x <> PEnd -> p <> PEnd -> okpc boost (now s) (hist s) t (set_pc p x) -> inv boost (upd s t (set_pc p) []).
Proof.
  intros HI Hx Hn Hp Hok. pose proof (i_thr HI _ Hx) as [H1 H2 H3 H4 H5 H6 H7 H8]. pose proof (i_int HI). pose proof (i_ret HI).
  eapply inv_upd; eauto; cbn; [|tauto]. split; cbn; auto. split; [congruence|]. intros Hi. apply H6 in Hi. contradiction.
Qed.

(** Setting the flag of thread j, and taking the thread from object j *)
Lemma intr_inv boost s j : inv boost s -> inv boost (upd s j (set_intr true) [EReq j]).
Proof.
  intros [H1 H2 H3 H4 H5]. unfold upd. split; cbn; auto.
  - now rewrite length_modify.
  - intros u y Hy. rewrite nth_modify in Hy. destruct (u =? j)%nat eqn:E.
    + apply Nat.eqb_eq in E. subst. destruct (nth_error (thrs s) j) as [x|] eqn:Ex; [|discriminate]. cbn in Hy. injection Hy as <-.
      destruct (H2 _ _ Ex) as [G1 G2 G3 G4 G5 G6 G7 G8]. split; cbn; auto.
      * now rewrite Nat.eqb_refl.
      * unfold okpc in *. cbn. destruct (t_pc x); intuition eauto using okh_cons.
        -- destruct H8 as (i & E & Hb & Hi). exists i. split; [exact E|]. split; [exact Hb|]. intros [He|Hi']; [discriminate|auto].
        -- destruct b; [|assumption]. destruct H7 as (i & E & Hi). exists i. split; [exact E|now right].
      * rewrite G6. split; [auto|intros [He|He]; [discriminate|exact He]].
      * intros Hj. destruct (G7 Hj) as [E|[v Hv]]; [now left|right; exists v; now right].
      * intros Hj. destruct (G8 Hj) as [E Hv]. split; [exact E|]. intros v [He|Hi]; [discriminate|exact (Hv v Hi)].
    + apply Nat.eqb_neq in E. apply okt_cons; auto. split; [cbn; congruence|]. split; discriminate.
  - intros t k n r [He|Hin]; [discriminate|eauto].
Qed.

Lemma jn_inv boost s j t x : inv boost s -> nth_error (thrs s) t = Some x -> ~ native x -> inv boost (upd s j (set_jn false) [ERel j t]).
Proof.
  intros [H1 H2 H3 H4 H5] Hx Hn. unfold upd. split; cbn; auto.
  - now rewrite length_modify.
  - intros u y Hy. rewrite nth_modify in Hy. destruct (u =? j)%nat eqn:E.
    + apply Nat.eqb_eq in E. subst u. destruct (nth_error (thrs s) j) as [z|] eqn:Ez; [|discriminate]. cbn in Hy. injection Hy as <-.
      assert (~ (j = t /\ native z)) by (intros [-> Hz']; congruence).
      destruct (H2 _ _ Ez) as [G1 G2 G3 G4 G5 G6 G7 G8]. split; cbn; auto.
      * unfold okpc, native in *. cbn. destruct (t_pc z); intuition eauto using okh_cons.
        -- destruct H9 as (i & E & Hi & Hr). exists i. split; [exact E|]. split; [exact Hi|]. intros [He|Hi']; [|auto]. injection He as -> ->. auto.
        -- destruct b; [|assumption]. destruct H8 as (i & E & Hi). exists i. split; [exact E|now right].
      * rewrite G6. split; [auto|intros [He|He]; [discriminate|exact He]].
      * intros _. right. exists t. now left.
      * discriminate.
    + apply Nat.eqb_neq in E. apply okt_cons; [|auto]. split; [cbn; discriminate|]. split.
      * intros i Hi. injection Hi as -> ->. congruence.
      * intros v Hi. injection Hi as -> ->. congruence.
  - intros v k n r [He|Hin]; [discriminate|eauto].
Qed.

(** ** Every step keeps the invariant *)
(** The thread leaves its call, with the event e. *)
Lemma leave_inv boost s t x e : inv boost s -> nth_error (thrs s) t = Some x -> t_pc x <> PEnd -> subj e = Some t ->
  (forall i u, e <> ERel i u) -> pending t (e :: hist s) = pending t (hist s) -> disabled t (e :: hist s) = disabled t (hist s) ->
  doing t (e :: hist s) = Nothing -> e <> EFin t -> (forall u k n r, e <> EWait u k n r) ->
  interruptions_ok boost (e :: hist s) -> returns_ok (e :: hist s) -> inv boost (upd s t (set_pc PIdle) [e]).
Proof.
  intros HI Hx Hpc Hs Hr Hp Hd Hdo Hf Hw Hi Ho. pose proof (i_thr HI _ Hx) as [H1 H2 H3 H4 H5 H6 H7 H8].
  eapply inv_upd; eauto.
  - constructor; [|constructor]. split; [now left|exact Hr].
  - change ([e] ++ hist s) with (e :: hist s). split; cbn [set_pc has en dis intr jn t_pc]; auto; try congruence.
    + split; [discriminate|]. intros [He|Hin]; [congruence|]. apply H6 in Hin. contradiction.
    + intros Hj. destruct (H7 Hj) as [E|[v Hv]]; [now left|right; exists v; now right].
    + intros Hj. destruct (H8 Hj) as [E Hv]. split; [exact E|]. intros v [He|Hin]; [exact (Hr _ _ He)|exact (Hv v Hin)].
  - intros u k n r [He|[]]. exfalso. exact (Hw _ _ _ _ He).
Qed.

Lemma ret_inv boost s t x k b : inv boost s -> nth_error (thrs s) t = Some x -> t_pc x <> PEnd -> doing t (hist s) = Waits k ->
  (b = true -> exists j, k_obj k = Some j /\ has_ended j (hist s)) ->
  (b = false -> match k_dl k with Never => False | Mono d => d <= now s | Real d => d <= real s end) ->
  inv boost (upd s t (set_pc PIdle) [ERet t k b (now s) (real s)]).
Proof.
  intros HI Hx Hpc Hd Ht Hf. eapply leave_inv; eauto; try discriminate; cbn.
  - now rewrite Nat.eqb_refl.
  - split; [exact I|exact (i_int HI)].
  - split; [auto|exact (i_ret HI)].
Qed.

Lemma joined_inv boost s t x k j : inv boost s -> nth_error (thrs s) t = Some x -> t_pc x <> PEnd -> ~ native x -> doing t (hist s) = Waits k ->
  k_obj k = Some j -> In (EFin j) (hist s) ->
  inv boost (upd (upd s j (set_jn false) [ERel j t]) t (set_pc PIdle) [ERet t k true (now s) (real s)]).
Proof.
  intros HI Hx Hpc Hn Hd Hk He.
  assert (HI' : inv boost (upd s j (set_jn false) [ERel j t])) by (eapply jn_inv; eauto); clear HI.
  assert (Hx' : exists x', nth_error (thrs (upd s j (set_jn false) [ERel j t])) t = Some x' /\ t_pc x' = t_pc x).
  { cbn. rewrite nth_modify. destruct (t =? j)%nat; rewrite Hx; eexists; split; reflexivity. }
  destruct Hx' as (x' & Hx' & Ex').
  change (now s) with (now (upd s j (set_jn false) [ERel j t])). change (real s) with (real (upd s j (set_jn false) [ERel j t])).
  eapply ret_inv; eauto.
  - congruence.
  - intros _. exists j. split; [exact Hk|]. cbn. now right.
  - discriminate.
Qed.

Lemma throw_inv boost s t x : inv boost s -> nth_error (thrs s) t = Some x -> t_pc x <> PEnd ->
  has x = true -> en x = true -> intr x = true ->
  match doing t (hist s) with Nothing => False | Waits k => k_ipt k = true | AtPoint => True end ->
  inv boost (upd s t (fun y => set_pc PIdle (set_intr false y)) [EThrow t]).
Proof.
  intros HI Hx Hpc Hh He Hi Hd. pose proof (i_thr HI _ Hx) as [H1 H2 H3 H4 H5 H6 H7 H8].
  eapply inv_upd; eauto.
  - constructor; [|constructor]. split; [now left|discriminate].
  - cbn. split; cbn; auto; try rewrite Nat.eqb_refl; auto.
    + split; [discriminate|]. intros [Hf|Hin]; [discriminate|]. apply H6 in Hin. contradiction.
    + intros Hj. destruct (H7 Hj) as [E|[v Hv]]; [now left|right; exists v; now right].
    + intros Hj. destruct (H8 Hj) as [E Hv]. split; [exact E|]. intros v [Hf|Hin]; [discriminate|exact (Hv v Hin)].
  - cbn. split; [|exact (i_int HI)]. split; [congruence|]. split; [|exact Hd].
    unfold interruptible. rewrite <- H1, Hh. cbn. destruct (H4 Hh) as [E _]. rewrite <- H3. congruence.
  - cbn. split; [exact I|exact (i_ret HI)].
  - cbn. intros u k n r [He'|[]]. discriminate.
Qed.

(** An event that leaves thread t in no call *)
Lemma note_inv boost s t x e : inv boost s -> nth_error (thrs s) t = Some x -> subj e = None -> (forall i u, e <> ERel i u) ->
  interruptions_ok boost (e :: hist s) -> returns_ok (e :: hist s) -> inv boost (upd s t (fun y => y) [e]).
Proof.
  intros HI Hx Hs Hr Hi Ho. eapply inv_upd; eauto.
  - constructor; [|constructor]. split; [now right|exact Hr].
  - change ([e] ++ hist s) with (e :: hist s). apply okt_cons; [|exact (i_thr HI _ Hx)].
    split; [congruence|]. split; intros i E; exfalso; exact (Hr _ _ E).
  - intros u k n r [He|[]]. subst e. discriminate.
Qed.

Lemma run_inv boost s t x s' : inv boost s -> nth_error (thrs s) t = Some x -> run s t x = Some s' -> inv boost s'.
Proof.
  intros HI Hx Hr. pose proof (i_thr HI _ Hx) as HO. destruct HO as [H1 H2 H3 H4 H5 H6 H7 H8].
  unfold run, goto, begin, ret, joined in Hr. unfold okpc in H5.
  assert (G : forall p, t_pc x <> PEnd -> p <> PEnd -> okpc boost (now s) (hist s) t (set_pc p x) -> Some (upd s t (set_pc p) []) = Some s' -> inv boost s').
  { intros p A B C E. injection E as <-. eapply goto_inv; eauto. }
  destruct (t_pc x) as [|k|k c|k c|k w c|k w c ip tm due|k w c ip tm due|k b|k| |] eqn:Epc; try discriminate.
  - (* PTop *)
    destruct H5 as [Hd Hw].
    assert (B : forall c, okc (now s) k c -> (match k_obj k with Some _ => Some (upd s t (set_pc (PGet k c)) []) | None => Some (upd s t (set_pc (PEnter k None c)) []) end) = Some s' -> inv boost s').
    { intros c Hc E. destruct (k_obj k) eqn:Eo; (eapply G; [congruence| | |exact E]); try discriminate; unfold okpc, okh; cbn; rewrite ?Eo; repeat split; auto; congruence. }
    assert (C : forall d, k_dl k = Real d -> okc (now s) k (chunk s d)).
    { intros d E. unfold okc, chunk. rewrite E. eexists. split; [reflexivity|]. lia. }
    destruct (k_dl k) as [|d|d] eqn:Ed.
    + apply (B None); [unfold okc; now rewrite Ed|exact Hr].
    + apply (B (Some d)); [unfold okc; now rewrite Ed|exact Hr].
    + specialize (C d eq_refl). destruct (k_obj k) eqn:Eo.
      * apply (B (chunk s d)); auto.
      * destruct (0 <? d - real s) eqn:El.
        -- apply (B (chunk s d)); auto.
        -- injection Hr as <-. apply Z.ltb_ge in El. eapply ret_inv; eauto; try congruence. intros _. rewrite Ed. lia.
  - (* PGet *)
    destruct H5 as (Hd & Hw & Hc & Ho). destruct (k_obj k) as [j|] eqn:Eo; [|congruence]. destruct (joinable s j) eqn:Ej.
    + eapply G; [congruence| | |exact Hr]; [discriminate|]. unfold okpc. cbn. split; [exact Hd|]. split; [exact Hw|]. split; [exact Hc|].
      exists j. split; [exact Eo|]. unfold joinable in Ej. destruct (nth_error (thrs s) j) as [y|] eqn:Ey; [|discriminate].
      destruct (o_kept (i_thr HI _ Ey) Ej) as [E1 E2]. split; [exact E1|]. intros Hin. exact (E2 _ Hin).
    + injection Hr as <-. eapply leave_inv; eauto; try discriminate; try congruence; cbn; auto.
      * now rewrite Nat.eqb_refl.
      * split; [exact I|exact (i_int HI)].
      * split; [exact I|exact (i_ret HI)].
  - (* PNative *)
    destruct H5 as (Hd & Hw & Hc & j & Eo & Hb & Hni). rewrite Eo in Hr. eapply G; [congruence| | |exact Hr]; [discriminate|].
    unfold okpc. cbn. split; [exact Hd|]. split; [exact Hw|]. split; [exact Hc|]. unfold okh. rewrite Eo.
    destruct (joinable s j) eqn:Ej; [reflexivity|]. unfold joinable in Ej. destruct (nth_error (thrs s) j) as [y|] eqn:Ey.
    + destruct (o_jn (i_thr HI _ Ey) Ej) as [E|[u Hu]]; [congruence|]. exists u. split; [|exact Hu]. intros ->. auto.
    + exfalso. apply nth_error_None in Ey. rewrite (i_len HI) in Ey. rewrite nth_overflow in Hb by exact Ey. discriminate.
  - (* PWait *)
    destruct H5 as (Hd & Hw & Hc & Hh & Hip & Htm & Hn). destruct (signalled s w) eqn:Es; [|destruct (ip && intr x) eqn:Ei; [|destruct (over s due) eqn:Eo; [destruct tm|]]].
    + eapply G; [congruence| | |exact Hr]; [discriminate|]. unfold okpc. cbn. split; [exact Hd|]. split; [exact Hw|].
      destruct w as [j|]; [|discriminate]. exists j. split; [exact Hh|]. cbn in Es. unfold ended in Es.
      destruct (nth_error (thrs s) j) as [y|] eqn:Ey; [|discriminate]. apply (o_end (i_thr HI _ Ey)). now destruct (t_pc y).
    + eapply G; [congruence| | |exact Hr]; [discriminate|]. unfold okpc. cbn. rewrite Hip in Ei. repeat rewrite andb_true_iff in Ei. tauto.
    + eapply G; [congruence| | |exact Hr]; [discriminate|]. unfold okpc. cbn. split; [exact Hd|]. split; [exact Hw|].
      destruct (Htm eq_refl) as (d & u & -> & -> & Hdu). cbn in Eo. apply Z.leb_le in Eo. unfold okc in Hc. destruct (k_dl k) as [|d'|d']; [discriminate| |exact I].
      injection Hc as ->. lia.
    + eapply G; [congruence| | |exact Hr]; [discriminate|]. unfold okpc, okw. cbn. tauto.
    + discriminate.
  - (* PAgain *)
    destruct H5 as (Hd & Hw & Hc & Hh & Hip & Htm & Hn). destruct c as [d|].
    + destruct tm.
      * eapply G; [congruence| | |exact Hr]; [discriminate|]. unfold okpc, okw. cbn. tauto.
      * cbv zeta in Hr. destruct ((getMs (d - now s) =? INFINITE) || (0 <? getMs (d - now s))) eqn:Em.
        -- eapply G; [congruence| | |exact Hr]; [discriminate|]. unfold okpc, okw. cbn. repeat split; auto; discriminate.
        -- eapply G; [congruence| | |exact Hr]; [discriminate|]. unfold okpc. cbn. split; [exact Hd|]. split; [exact Hw|].
           apply orb_false_iff in Em. destruct Em as [_ Em]. apply Z.ltb_ge in Em. unfold okc in Hc. destruct (k_dl k) as [|d'|d']; [discriminate| |exact I].
           injection Hc as ->. unfold getMs in Em. destruct (0 <=? d' - now s) eqn:E0; [|apply Z.leb_gt in E0; lia].
           apply Z.leb_le in E0. destruct (Z.le_gt_cases (d' - now s) 0) as [|Hg]; [lia|]. exfalso.
           assert (1 <= Z.quot (d' - now s + 999999) 1000000); [|lia]. rewrite Z.quot_div_nonneg by lia. apply Z.div_le_lower_bound; lia.
    + eapply G; [congruence| | |exact Hr]; [discriminate|]. unfold okpc, okw. cbn. tauto.
  - (* PDone *)
    destruct H5 as (Hd & Hw & Hb).
    assert (J : forall j, k_obj k = Some j -> b = true -> Some (upd (upd s j (set_jn false) [ERel j t]) t (set_pc PIdle) [ERet t k true (now s) (real s)]) = Some s' -> inv boost s').
    { intros j Ej -> E. injection E as <-. eapply joined_inv; eauto; try congruence.
      - unfold native. now rewrite Epc.
      - destruct Hb as (j' & E & Hi). congruence. }
    assert (R : b = false -> match k_dl k with Never => False | Mono d => d <= now s | Real d => d <= real s end -> Some (upd s t (set_pc PIdle) [ERet t k false (now s) (real s)]) = Some s' -> inv boost s').
    { intros -> Hf E. injection E as <-. eapply ret_inv; eauto; congruence. }
    destruct (k_obj k) as [j|] eqn:Eo; destruct (k_dl k) as [|d|d] eqn:Ed.
    + apply (J j eq_refl); [destruct b; [reflexivity|contradiction]|exact Hr].
    + destruct b; [apply (J j eq_refl eq_refl Hr)|apply (R eq_refl Hb Hr)].
    + destruct b; [apply (J j eq_refl eq_refl Hr)|]. destruct (d - real s <=? 0) eqn:El.
      * apply Z.leb_le in El. apply R; [reflexivity|lia|exact Hr].
      * eapply G; [congruence| | |exact Hr]; [discriminate|]. unfold okpc, okc. cbn. rewrite Ed, Eo. split; [exact Hd|]. split; [exact Hw|]. split; [|discriminate].
        unfold chunk. eexists. split; [reflexivity|]. lia.
    + exfalso. apply Hw; congruence.
    + destruct b; [destruct Hb as (j & E & _); discriminate|]. apply R; auto.
    + eapply G; [congruence| | |exact Hr]; [discriminate|]. unfold okpc. cbn. auto.
  - (* PIntr *)
    destruct H5 as (Hd & Hk & Hh & He & Hi). injection Hr as <-. eapply throw_inv; eauto; [congruence|]. rewrite Hd. exact Hk.
  - (* PPoint *)
    destruct H5 as (Hd & Hh & He & Hi). injection Hr as <-. eapply throw_inv; eauto; [congruence|]. rewrite Hd. exact I.
Qed.

Lemma call_inv boost s t x o s' : inv boost s -> nth_error (thrs s) t = Some x -> call s t x o = Some s' -> inv boost s'.
Proof.
  intros HI Hx Hc. pose proof (i_thr HI _ Hx) as HO. destruct HO as [H1 H2 H3 H4 H5 H6 H7 H8].
  unfold call in Hc. destruct (t_pc x) eqn:Epc; try discriminate. unfold okpc in H5. rewrite Epc in H5.
  destruct o as [k|j|j| | | | |j|].
  - (* OWait *)
    cbv zeta in Hc.
    assert (W : wf k -> Some (upd s t (set_pc (PTop k)) [EWait t k (now s) (real s)]) = Some s' -> inv boost s').
    { intros Hw E. injection E as <-. eapply inv_upd; eauto.
      - constructor; [|constructor]. split; [now left|discriminate].
      - cbn. split; cbn; auto.
        + unfold okpc; cbn; rewrite ?Nat.eqb_refl; auto.
        + split; [discriminate|]. intros [Hf|Hin]; [discriminate|]. apply H6 in Hin. congruence.
        + intros Hj. destruct (H7 Hj) as [E|[v Hv]]; [now left|right; exists v; now right].
        + intros Hj. destruct (H8 Hj) as [E Hv]. split; [exact E|]. intros v [Hf|Hin]; [discriminate|exact (Hv v Hin)].
      - cbn. split; [exact I|exact (i_int HI)].
      - cbn. split; [exact I|exact (i_ret HI)].
      - intros u k' n r [E|[]]. injection E as <- <- <- <-. lia. }
    destruct (k_obj k) as [j|] eqn:Eo.
    + destruct ((j =? t)%nat && joinable s j) eqn:Ej.
      * injection Hc as <-. eapply leave_inv; eauto; try discriminate; try congruence; cbn; auto.
        -- now rewrite Nat.eqb_refl.
        -- split; [exact I|exact (i_int HI)].
        -- split; [exact I|exact (i_ret HI)].
      * apply W; [intros E; congruence|exact Hc].
    + destruct (k_dl k) eqn:Ed; [discriminate| |]; (apply W; [intros _; congruence|exact Hc]).
  - destruct (joinable s j); injection Hc as <-; [now apply intr_inv|exact HI].
  - destruct (nth_error (thrs s) j) as [y|] eqn:Ey; [|discriminate]. destruct (jn y); injection Hc as <-; [|exact HI].
    eapply note_inv; eauto; cbn; try discriminate; split; auto; try exact (i_int HI); try exact (i_ret HI). exact (o_intr (i_thr HI _ Ey)).
  - destruct (enabled x && intr x) eqn:Ee.
    + injection Hc as <-. unfold enabled in Ee. rewrite !andb_true_iff in Ee. destruct Ee as [[Eh En] Ei]. eapply inv_upd; eauto.
      * constructor; [|constructor]. split; [now left|discriminate].
      * cbn. split; cbn; auto.
        -- unfold okpc. cbn. now rewrite Nat.eqb_refl.
        -- split; [discriminate|]. intros [Hf|Hin]; [discriminate|]. apply H6 in Hin. congruence.
        -- intros Hj. destruct (H7 Hj) as [E|[v Hv]]; [now left|right; exists v; now right].
        -- intros Hj. destruct (H8 Hj) as [E Hv]. split; [exact E|]. intros v [Hf|Hin]; [discriminate|exact (Hv v Hin)].
      * cbn. split; [exact I|exact (i_int HI)].
      * cbn. split; [exact I|exact (i_ret HI)].
      * cbn. intros u k' n r [E|[]]. discriminate.
    + injection Hc as <-. eapply note_inv; eauto; cbn; try discriminate; split; auto; try exact (i_int HI); try exact (i_ret HI).
      unfold interruptible. rewrite <- H1, <- H2, <- H3. unfold enabled in Ee. destruct (has x); cbn in *; [|auto].
      destruct (H4 eq_refl) as [E _]. rewrite E in Ee. destruct (intr x); [right|now left]. now rewrite andb_true_r in Ee.
  - injection Hc as <-. eapply note_inv; eauto; cbn; try discriminate; split; auto; try exact (i_int HI); try exact (i_ret HI).
    unfold interruptible, enabled. rewrite <- H1, <- H3. destruct (has x); cbn; [|auto]. exact (proj1 (H4 eq_refl)).
  - injection Hc as <-. eapply inv_upd; eauto.
    + constructor; [|constructor]. split; [now left|discriminate].
    + cbn. split; cbn; auto; try rewrite Nat.eqb_refl; auto.
      * intros Hh. destruct (H4 Hh) as [E E']. unfold enabled. rewrite Hh. cbn. split; [destruct (en x); reflexivity|]. auto.
      * unfold okpc. cbn. rewrite Epc. exact H5.
      * rewrite Epc. split; [discriminate|]. intros [Hf|Hin]; [discriminate|]. apply H6 in Hin. congruence.
      * intros Hj. destruct (H7 Hj) as [E|[v Hv]]; [now left|right; exists v; now right].
      * intros Hj. destruct (H8 Hj) as [E Hv]. split; [exact E|]. intros v [Hf|Hin]; [discriminate|exact (Hv v Hin)].
    + cbn. split; [exact I|exact (i_int HI)].
    + cbn. split; [exact I|exact (i_ret HI)].
    + cbn. intros u k' n r [E|[]]. discriminate.
  - destruct (dis x) as [|w l] eqn:Ed; [discriminate|]. injection Hc as <-. eapply inv_upd; eauto.
    + constructor; [|constructor]. split; [now left|discriminate].
    + cbn. split; cbn; auto; try rewrite Nat.eqb_refl; auto.
      * rewrite <- H3. reflexivity.
      * intros Hh. destruct (H4 Hh) as [E [E1 E2]]. rewrite Hh. auto.
      * unfold okpc. cbn. rewrite Epc. exact H5.
      * rewrite Epc. split; [discriminate|]. intros [Hf|Hin]; [discriminate|]. apply H6 in Hin. congruence.
      * intros Hj. destruct (H7 Hj) as [E|[v Hv]]; [now left|right; exists v; now right].
      * intros Hj. destruct (H8 Hj) as [E Hv]. split; [exact E|]. intros v [Hf|Hin]; [discriminate|exact (Hv v Hin)].
    + cbn. split; [exact I|exact (i_int HI)].
    + cbn. split; [exact I|exact (i_ret HI)].
    + cbn. intros u k' n r [E|[]]. discriminate.
  - injection Hc as <-. destruct (joinable s j) eqn:Ej; [eapply jn_inv; eauto; unfold native; now rewrite Epc|].
    destruct (nth_error (thrs s) j) as [y|] eqn:Ey.
    + unfold joinable in Ej. rewrite Ey in Ej. eapply inv_upd; eauto; cbn.
      * pose proof (i_thr HI _ Ey) as Hy. destruct y; cbn in *. subst. exact Hy.
      * exact (i_int HI).
      * exact (i_ret HI).
      * tauto.
    + replace (upd s j (set_jn false) []) with s; [exact HI|]. unfold upd. destruct s as [a b l h]. cbn in *. f_equal.
      clear - Ey. revert j Ey. induction l as [|y l IH]; intros [|j] Ey; cbn in *; auto; [discriminate|]. f_equal. auto.
  - injection Hc as <-. eapply inv_upd; eauto.
    + constructor; [|constructor]. split; [now left|discriminate].
    + cbn. split; cbn; auto.
      * split; auto.
      * intros Hj. destruct (H7 Hj) as [E|[v Hv]]; [now left|right; exists v; now right].
      * intros Hj. destruct (H8 Hj) as [E Hv]. split; [exact E|]. intros v [Hf|Hin]; [discriminate|exact (Hv v Hin)].
    + cbn. split; [exact I|exact (i_int HI)].
    + cbn. split; [exact I|exact (i_ret HI)].
    + cbn. intros u k' n r [E|[]]. discriminate.
Qed.

Lemma getMs_ge ns : ns <= getMs ns * 1000000 \/ getMs ns < 0.
Proof.
  unfold getMs. destruct (0 <=? ns) eqn:E.
  - apply Z.leb_le in E. left. rewrite Z.quot_div_nonneg by lia. pose proof (Z.mul_succ_div_gt (ns + 999999) 1000000). lia.
  - apply Z.leb_gt in E. right. replace (ns - 999999) with (- (999999 - ns)) by lia. rewrite Z.quot_opp_l by lia.
    rewrite Z.quot_div_nonneg by lia. assert (1 <= (999999 - ns) / 1000000); [|lia]. apply Z.div_le_lower_bound; lia.
Qed.
Lemma getMs_neg ns : getMs ns < 0 <-> ns < 0.
Proof.
  unfold getMs. destruct (0 <=? ns) eqn:E.
  - apply Z.leb_le in E. rewrite Z.quot_div_nonneg by lia. pose proof (Z.div_pos (ns + 999999) 1000000). lia.
  - apply Z.leb_gt in E. replace (ns - 999999) with (- (999999 - ns)) by lia. rewrite Z.quot_opp_l by lia.
    rewrite Z.quot_div_nonneg by lia. assert (1 <= (999999 - ns) / 1000000); [apply Z.div_le_lower_bound; lia|lia].
Qed.
Lemma getMs_lt ns : 0 <= ns -> getMs ns * 1000000 < ns + 1000000.
Proof.
  intros H. unfold getMs. destruct (0 <=? ns) eqn:E; [|apply Z.leb_gt in E; lia]. rewrite Z.quot_div_nonneg by lia.
  pose proof (Z.mul_div_le (ns + 999999) 1000000). lia.
Qed.
Lemma due_timer_ge s d u : due_timer s (getMs (d - now s)) = Some u -> d <= u.
Proof.
  unfold due_timer. intros E. assert (u = now s + (if 0 <? getMs (d - now s) then getMs (d - now s) else 0) * 1000000) by congruence. clear E.
  pose proof (getMs_neg (d - now s)). pose proof (getMs_ge (d - now s)). destruct (Z.ltb_spec 0 (getMs (d - now s))); lia.
Qed.

Lemma enter_inv boost s t x ok k w c s' : inv boost s -> nth_error (thrs s) t = Some x -> t_pc x = PEnter k w c -> enter s t x ok k w c = Some s' -> inv boost s'.
Proof.
  intros HI Hx Epc He. pose proof (o_pc (i_thr HI _ Hx)) as H5. unfold okpc in H5. rewrite Epc in H5. destruct H5 as (Hd & Hw & Hc & Hh).
  unfold enter, goto in He. destruct c as [d|].
  - cbv zeta in He. destruct ok; injection He as <-; (eapply goto_inv; [exact HI|exact Hx|congruence|discriminate|]); unfold okpc, okw; cbn.
    + split; [exact Hd|]. split; [exact Hw|]. split; [exact Hc|]. split; [exact Hh|]. split; [reflexivity|]. split; [|discriminate]. intros _. exists d. eexists. split; [reflexivity|]. split; [reflexivity|]. eapply due_timer_ge. reflexivity.
    + repeat split; auto; discriminate.
  - injection He as <-. eapply goto_inv; [exact HI|exact Hx|congruence|discriminate|]. unfold okpc, okw. cbn. repeat split; auto; discriminate.
Qed.

Lemma inv_step boost s l s' : inv boost s -> exec s l = Some s' -> inv boost s'.
Proof.
  intros HI He. destruct l as [t o|t|t ok|t|dm dr]; cbn in He.
  - destruct (nth_error (thrs s) t) as [x|] eqn:Ex; [|discriminate]. eapply call_inv; eauto.
  - destruct (nth_error (thrs s) t) as [x|] eqn:Ex; [|discriminate]. eapply run_inv; eauto.
  - destruct (nth_error (thrs s) t) as [x|] eqn:Ex; [|discriminate]. destruct (t_pc x) eqn:Ep; try discriminate. eapply enter_inv; eauto.
  - destruct (nth_error (thrs s) t) as [x|] eqn:Ex; [|discriminate]. destruct (t_pc x) eqn:Ep; try discriminate. injection He as <-.
    pose proof (o_pc (i_thr HI _ Ex)) as H5. unfold okpc in H5. rewrite Ep in H5. eapply goto_inv; [exact HI|exact Ex|congruence|discriminate|exact H5].
  - destruct (0 <=? dm) eqn:Ed; [|discriminate]. injection He as <-. apply Z.leb_le in Ed. destruct HI as [H1 H2 H3 H4 H5]. split; cbn; auto.
    + intros t x Hx. eapply later; [|eauto]. lia.
    + intros t k n r Hin. specialize (H5 _ _ _ _ Hin). lia.
Qed.

Lemma inv_reach f boost n r s : reach f boost n r s -> inv boost s.
Proof. induction 1; [apply inv_init|eapply inv_step; eauto]. Qed.
