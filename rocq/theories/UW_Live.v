(** * unwrap(): what holds of histories, and what is left when no thread can go on *)
From Verif Require Import UW_Model UW_Spec UW_Proofs UW_Inv.
Set Implicit Arguments.

Lemma thr_upd ts t z z' t' y : nth_error ts t = Some z -> nth_error (upd_thr ts t z') t' = Some y -> (t' = t /\ y = z') \/ (t' <> t /\ nth_error ts t' = Some y).
Proof.
  intros Hz Hy. unfold upd_thr in Hy. rewrite nth_modify in Hy. destruct (t' =? t) eqn:Et.
  - apply Nat.eqb_eq in Et. subst t'. rewrite Hz in Hy. cbn in Hy. injection Hy as <-. auto.
  - apply Nat.eqb_neq in Et. auto.
Qed.

(** ** What the threads wait for *)
Lemma waits_step s l s' : inv s -> (forall t z, nth_error (thrs s) t = Some z -> waits t (hist s) = wt z) -> exec s l = Some s' ->
  forall t z, nth_error (thrs s') t = Some z -> waits t (hist s') = wt z.
Proof.
  intros HI IH He.
  assert (U : forall t0 x z0 h e t z, nth_error (thrs s) t0 = Some x -> nth_error (upd_thr (thrs s) t0 z0) t = Some z ->
      h = e ++ hist s -> (forall t', t' <> t0 -> waits t' h = waits t' (hist s)) -> (waits t0 h = wt z0) -> waits t h = wt z).
  { intros t0 x z0 h e t z Hx Hz Eh Ho Hs. destruct (thr_upd _ _ _ _ Hx Hz) as [(-> & ->)|(Hn & Hz')]; [exact Hs|]. rewrite Ho by exact Hn. exact (IH _ _ Hz'). }
  destruct l as [t0 o|t0|t0 o]; cbn in He; destruct (nth_error (thrs s) t0) as [x|] eqn:Hx; try discriminate; pose proof (IH _ _ Hx) as W0.
  - unfold idle in He. destruct (fs x) as [|f fr] eqn:Hf; [|discriminate]. destruct (wt x) as [j|] eqn:Hw; [discriminate|]. destruct o as [k d|i o|i|i|i]; cbn in He.
    + injection He as <-. intros t z Hz. cbn. exact (IH _ _ Hz).
    + destruct (nth_error (sts s) i) as [y|]; [|discriminate]. destruct (src y); try discriminate. destruct (out y); [discriminate|].
      destruct (has_type (sts s) (ty y) o && movable_in s o); [|discriminate]. rewrite finish_eta in He. injection He as <-. intros t z Hz. cbn [thrs hist] in *.
      eapply (U t0 x _ _ [ESet i o]); eauto.
    + destruct (nth_error (sts s) i) as [y|]; [|discriminate]. destruct (ty y) as [|k]; [discriminate|]. destruct (movable s i); [|discriminate]. rewrite attach_eta in He. injection He as <-.
      intros t z Hz. cbn [thrs hist] in *. eapply (U t0 x _ _ [EUnwrap i (length (sts s))]); eauto.
    + destruct (nth_error (sts s) i) as [y|]; [|discriminate]. destruct (user y); [|discriminate]. injection He as <-. intros t z Hz. cbn [thrs hist] in *.
      eapply (U t0 x _ _ [EWaits t0 i]); eauto; [intros t' Hn; cbn; destruct (t0 =? t') eqn:E; [apply Nat.eqb_eq in E; congruence|reflexivity]|cbn; rewrite Nat.eqb_refl; reflexivity].
    + destruct (nth_error (sts s) i) as [y|]; [|discriminate]. destruct (out y) as [o|]; [|discriminate]. destruct (movable s i); [|discriminate]. injection He as <-. intros t z Hz. cbn. exact (IH _ _ Hz).
  - unfold run in He. destruct (fs x) as [|[u|u j] fr] eqn:Hf.
    + destruct (wt x) as [i|]; [|discriminate]. destruct (nth_error (sts s) i) as [y|]; [|discriminate]. destruct (out y); [|discriminate]. injection He as <-. intros t z Hz. cbn [thrs hist] in *.
      eapply (U t0 x _ _ [EWaited t0 i]); eauto; [intros t' Hn; cbn; destruct (t0 =? t') eqn:E; [apply Nat.eqb_eq in E; congruence|reflexivity]|cbn; rewrite Nat.eqb_refl; reflexivity].
    + destruct (launch (sts s) u) as [[l f]|]; [|discriminate]. injection He as <-. intros t z Hz. cbn [thrs hist] in *. eapply (U t0 x _ _ []); eauto.
    + rewrite attach_eta in He. injection He as <-. intros t z Hz. cbn [thrs hist] in *. eapply (U t0 x _ _ []); eauto.
  - unfold run_deferred in He. destruct (fs x) as [|f fr] eqn:Hf; [|discriminate]. destruct (wt x) as [i|] eqn:Hw; [|discriminate]. destruct (nth_error (sts s) i) as [y|]; [|discriminate].
    destruct (src y); try discriminate. destruct (started y); [discriminate|]. destruct (has_type (sts s) (ty y) o && movable_in s o); [|discriminate].
    rewrite finish_eta in He. injection He as <-. intros t z Hz. cbn [thrs hist] in *. eapply (U t0 x _ _ [ESet i o]); eauto.
Qed.
Lemma waits_wt n s t z : reach n s -> nth_error (thrs s) t = Some z -> waits t (hist s) = wt z.
Proof.
  intros Hr. revert t z. induction Hr as [|s l s' Hr IH He]; intros t z Hz.
  - apply nth_error_In in Hz. apply repeat_spec in Hz. subst. reflexivity.
  - eapply (@waits_step s l s'); eauto. eapply inv_reach; eauto.
Qed.
Lemma thrs_len n s : reach n s -> length (thrs s) = n.
Proof.
  induction 1 as [|s l s' Hr IH He]; [cbn; apply repeat_length|]. rewrite <- IH. clear IH.
  assert (U : forall t z, length (upd_thr (thrs s) t z) = length (thrs s)) by (intros; apply modify_length).
  destruct l as [t0 o|t0|t0 o]; cbn in He; destruct (nth_error (thrs s) t0) as [x|]; try discriminate.
  - destruct (idle x); [|discriminate]. destruct o as [k d|i o|i|i|i]; cbn in He; try (injection He as <-; reflexivity); destruct (nth_error (sts s) i) as [y|]; try discriminate.
    + destruct (src y); try discriminate. destruct (out y); [discriminate|]. destruct (has_type (sts s) (ty y) o && movable_in s o); [|discriminate]. rewrite finish_eta in He. injection He as <-. apply U.
    + destruct (ty y); [discriminate|]. destruct (movable s i); [|discriminate]. rewrite attach_eta in He. injection He as <-. apply U.
    + destruct (user y); [|discriminate]. injection He as <-. apply U.
    + destruct (out y) as [o|]; [|discriminate]. destruct (movable s i); [|discriminate]. injection He as <-. reflexivity.
  - unfold run in He. destruct (fs x) as [|[u|u j] fr].
    + destruct (wt x) as [i|]; [|discriminate]. destruct (nth_error (sts s) i) as [y|]; [|discriminate]. destruct (out y); [|discriminate]. injection He as <-. apply U.
    + destruct (launch (sts s) u) as [[l f]|]; [|discriminate]. injection He as <-. apply U.
    + rewrite attach_eta in He. injection He as <-. apply U.
  - unfold run_deferred in He. destruct (fs x); [|discriminate]. destruct (wt x) as [i|]; [|discriminate]. destruct (nth_error (sts s) i) as [y|]; [|discriminate].
    destruct (src y); try discriminate. destruct (started y); [discriminate|]. destruct (has_type (sts s) (ty y) o && movable_in s o); [|discriminate]. rewrite finish_eta in He. injection He as <-. apply U.
Qed.
Lemma waits_thread n s t i : reach n s -> waits t (hist s) = Some i -> exists z, nth_error (thrs s) t = Some z /\ wt z = Some i.
Proof.
  intros Hr Hw. destruct (nth_error (thrs s) t) as [z|] eqn:Hz; [exists z; split; [auto|]; rewrite <- (waits_wt _ Hr Hz); auto|exfalso].
  apply nth_error_None in Hz. rewrite (thrs_len Hr) in Hz.
  assert (G : forall s, reach n s -> waits t (hist s) = None); [|rewrite (G s Hr) in Hw; discriminate]. clear -Hz.
  induction 1 as [|s l s' Hr IH He]; [reflexivity|].
  assert (Ht : forall t0 x, nth_error (thrs s) t0 = Some x -> (t0 =? t) = false).
  { intros t0 x Hx. apply Nat.eqb_neq. intros ->. assert (t < length (thrs s)) by (apply nth_error_Some; congruence). rewrite (thrs_len Hr) in *. lia. }
  destruct l as [t0 o|t0|t0 o]; cbn in He; destruct (nth_error (thrs s) t0) as [x|] eqn:Hx; try discriminate; specialize (Ht _ _ Hx).
  - destruct (idle x); [|discriminate]. destruct o as [k d|i o|i|i|i]; cbn in He; try (injection He as <-; exact IH); destruct (nth_error (sts s) i) as [y|]; try discriminate.
    + destruct (src y); try discriminate. destruct (out y); [discriminate|]. destruct (has_type (sts s) (ty y) o && movable_in s o); [|discriminate]. rewrite finish_eta in He. injection He as <-. exact IH.
    + destruct (ty y); [discriminate|]. destruct (movable s i); [|discriminate]. rewrite attach_eta in He. injection He as <-. exact IH.
    + destruct (user y); [|discriminate]. injection He as <-. cbn. rewrite Ht. exact IH.
    + destruct (out y) as [o|]; [|discriminate]. destruct (movable s i); [|discriminate]. injection He as <-. exact IH.
  - unfold run in He. destruct (fs x) as [|[u|u j] fr].
    + destruct (wt x) as [i|]; [|discriminate]. destruct (nth_error (sts s) i) as [y|]; [|discriminate]. destruct (out y); [|discriminate]. injection He as <-. cbn. rewrite Ht. exact IH.
    + destruct (launch (sts s) u) as [[l f]|]; [|discriminate]. injection He as <-. exact IH.
    + rewrite attach_eta in He. injection He as <-. exact IH.
  - unfold run_deferred in He. destruct (fs x); [|discriminate]. destruct (wt x) as [i|]; [|discriminate]. destruct (nth_error (sts s) i) as [y|]; [|discriminate].
    destruct (src y); try discriminate. destruct (started y); [discriminate|]. destruct (has_type (sts s) (ty y) o && movable_in s o); [|discriminate]. rewrite finish_eta in He. injection He as <-. exact IH.
Qed.

(** ** What was observed is right *)
Lemma res_fun s i o o' : sta s -> res (hist s) i o -> res (hist s) i o' -> o = o'.
Proof.
  intros HI H. revert o'.
  assert (U : forall w u, In (EUnwrap w u) (hist s) -> forall o, ~ In (ESet u o) (hist s)).
  { intros w u Hu o1 Hs. destruct (a_unw HI _ _ Hu) as (x & Hx & E). destruct (a_set HI _ _ Hs) as (x' & Hx' & E' & _). assert (x' = x) by congruence. subst. destruct E'; congruence. }
  assert (W : forall w w' u, In (EUnwrap w u) (hist s) -> In (EUnwrap w' u) (hist s) -> w = w').
  { intros w w' u H1 H2. destruct (a_unw HI _ _ H1) as (x & Hx & E). destruct (a_unw HI _ _ H2) as (x' & Hx' & E'). congruence. }
  induction H as [i o Hs|w u e Hu H IH|w u Hu H IH|w u j o Hu H IH Hj IHj]; intros o' H'; inversion H'; subst; try (exfalso; eapply U; eauto; fail).
  - eapply (a_uniq HI); eauto.
  - assert (i = w) by eauto. subst. auto.
  - assert (i = w) by eauto. subst. exfalso. match goal with X : res _ w (Fut None) |- _ => specialize (IH _ X); discriminate end.
  - assert (i = w) by eauto. subst. exfalso. match goal with X : res _ w (Fut (Some _)) |- _ => specialize (IH _ X); discriminate end.
  - assert (i = w) by eauto. subst. exfalso. match goal with X : res _ w (Exc _) |- _ => specialize (IH _ X); discriminate end.
  - reflexivity.
  - assert (i = w) by eauto. subst. exfalso. match goal with X : res _ w (Fut (Some _)) |- _ => specialize (IH _ X); discriminate end.
  - assert (i = w) by eauto. subst. exfalso. match goal with X : res _ w (Exc _) |- _ => specialize (IH _ X); discriminate end.
  - assert (i = w) by eauto. subst. exfalso. match goal with X : res _ w (Fut None) |- _ => specialize (IH _ X); discriminate end.
  - assert (i = w) by eauto. subst. match goal with X : res _ w (Fut (Some ?k)) |- _ => specialize (IH _ X); injection IH as -> end. auto.
Qed.

Definition right (h : list event) : Prop :=
  (forall t i o, In (EGot t i o) h -> res h i o) /\ (forall t i, In (EWaited t i) h -> exists o, res h i o).
Lemma right_cons h e : right h -> match e with EGot t i o => res h i o | EWaited t i => exists o, res h i o | _ => True end -> right (e :: h).
Proof.
  intros (A & B) He. split.
  - intros t i o [->|H]; [apply res_mono; exact He|apply res_mono; eauto].
  - intros t i [->|H]; [destruct He as (o & Ho)|destruct (B _ _ H) as (o & Ho)]; exists o; apply res_mono; exact Ho.
Qed.
Lemma right_reach n s : reach n s -> right (hist s).
Proof.
  induction 1 as [|s l s' Hr IH He]; [split; intros; contradiction|]. pose proof (inv_reach Hr) as HI.
  destruct l as [t0 o|t0|t0 o]; cbn in He; destruct (nth_error (thrs s) t0) as [x|] eqn:Hx; try discriminate.
  - destruct (idle x); [|discriminate]. destruct o as [k d|i o|i|i|i]; cbn in He; try (injection He as <-; apply right_cons; [exact IH|exact I]); destruct (nth_error (sts s) i) as [y|] eqn:Hy; try discriminate.
    + destruct (src y); try discriminate. destruct (out y); [discriminate|]. destruct (has_type (sts s) (ty y) o && movable_in s o); [|discriminate]. rewrite finish_eta in He. injection He as <-. apply right_cons; [exact IH|exact I].
    + destruct (ty y); [discriminate|]. destruct (movable s i); [|discriminate]. rewrite attach_eta in He. injection He as <-. apply right_cons; [exact IH|exact I].
    + destruct (user y); [|discriminate]. injection He as <-. apply right_cons; [exact IH|exact I].
    + destruct (out y) as [o|] eqn:Ho; [|discriminate]. destruct (movable s i) eqn:Hm; [|discriminate]. injection He as <-. apply right_cons; [exact IH|].
      destruct (@movable_true _ _ Hm) as (y' & Hy' & Hu & _). assert (y' = y) by congruence. subst y'. pose proof (a_out (i_sta HI) _ Hy) as A. rewrite Ho in A. apply A.
      intros ->. destruct (i_fresh HI _ Hy Ho) as (B & _). congruence.
  - unfold run in He. destruct (fs x) as [|[u|u j] fr].
    + destruct (wt x) as [i|]; [|discriminate]. destruct (nth_error (sts s) i) as [y|] eqn:Hy; [|discriminate]. destruct (out y) as [o|] eqn:Ho; [|discriminate]. injection He as <-. apply right_cons; [exact IH|].
      pose proof (a_out (i_sta HI) _ Hy) as A. rewrite Ho in A. apply A.
    + destruct (launch (sts s) u) as [[l f]|]; [|discriminate]. injection He as <-. exact IH.
    + rewrite attach_eta in He. injection He as <-. exact IH.
  - unfold run_deferred in He. destruct (fs x); [|discriminate]. destruct (wt x) as [i|]; [|discriminate]. destruct (nth_error (sts s) i) as [y|]; [|discriminate].
    destruct (src y); try discriminate. destruct (started y); [discriminate|]. destruct (has_type (sts s) (ty y) o && movable_in s o); [|discriminate]. rewrite finish_eta in He. injection He as <-. apply right_cons; [exact IH|exact I].
Qed.

(** ** No assertion fails *)
Lemma launch_ok s u : inv s -> launchable (sts s) u -> want (sts s) u = 1 -> launch (sts s) u <> None.
Proof.
  intros HI (x & j & y & o & Hx & L & Hy & Ho & Hn) Hw. unfold launch. rewrite Hx. unfold want in Hw. rewrite Hx in Hw. unfold want1 in Hw.
  destruct (src x) as [| |w] eqn:Hs; try discriminate. destruct L as [(E & ->)|E].
  - assert (w = j) by congruence. subst w. rewrite Hy, Ho. pose proof (a_out (i_sta HI) _ Hy) as A. rewrite Ho in A. destruct A as ([A|A] & _); [congruence|].
    pose proof (a_src (i_sta HI) _ Hx) as As. rewrite Hs in As. destruct As as (_ & y' & Hy' & Et). assert (y' = y) by congruence. subst y'. rewrite Et in A.
    destruct o as [v|e|[j'|]|]; try discriminate.
  - rewrite E, Hy, Ho. destruct o; try discriminate. congruence.
Qed.
Lemma frame_runs s t z : inv s -> nth_error (thrs s) t = Some z -> fs z <> [] -> exec s (LRun t) <> None.
Proof.
  intros HI Hz Hf. cbn. rewrite Hz. unfold run. destruct (fs z) as [|[u|u j] fr] eqn:Ef; [congruence| |].
  - assert (G : frames (thrs s) (FLaunch u)) by (exists t, z; rewrite Ef; split; [auto|left; auto]).
    destruct (@only_here _ _ _ _ _ HI Hz Ef) as (Hw & _). pose proof (launch_ok HI (i_launch HI G) Hw) as L. destruct (launch (sts s) u) as [[l f]|]; [discriminate|congruence].
  - rewrite attach_eta. discriminate.
Qed.

(** ** At rest *)
Lemma rest_frames s : inv s -> at_rest s -> forall t z, nth_error (thrs s) t = Some z -> fs z = [].
Proof. intros HI Hr t z Hz. destruct (fs z) eqn:E; [reflexivity|exfalso]. apply (@frame_runs s t z HI Hz); [congruence|]. apply (Hr t). Qed.
Lemma rest_link s u x w : inv s -> at_rest s -> nth_error (sts s) u = Some x -> src x = Unwrapped w -> out x = None ->
  exists j y, nth_error (sts s) j = Some y /\ In u (conts y) /\ out y = None /\ linked x j.
Proof.
  intros HI Hr Hx Hs Ho. pose proof (i_cnt HI u) as K. unfold want in K. rewrite Hx in K. unfold want1 in K. rewrite Hs, Ho in K.
  assert (F0 : ft (thrs s) u = 0). { apply sumi_zero. intros t z Hz. rewrite (rest_frames HI Hr _ Hz). reflexivity. }
  assert (P : 0 < cs (sts s) u) by lia. destruct (@sumi_pos _ (fun _ y => cnt u (conts y)) (sts s) 0 P) as (j & y & Hy & Hp). apply in_cnt in Hp.
  destruct (i_conts HI _ _ Hy Hp) as (A & x' & Hx' & L). assert (x' = x) by congruence. subst x'. eauto 10.
Qed.
Lemma rest_resolved s i o : inv s -> at_rest s -> res (hist s) i o -> exists x, nth_error (sts s) i = Some x /\ out x <> None.
Proof.
  intros HI Hr H. pose proof (i_sta HI) as Hs.
  assert (G : forall w u x, In (EUnwrap w u) (hist s) -> nth_error (sts s) u = Some x -> src x = Unwrapped w -> out x = None ->
     (exists y, nth_error (sts s) w = Some y /\ out y <> None) -> exists j y, inner x = Some j /\ res (hist s) w (Fut (Some j)) /\ nth_error (sts s) j = Some y /\ out y = None).
  { intros w u x Hu Hx Es Eo (y & Hy & Ey). destruct (@rest_link s u x w HI Hr Hx Es Eo) as (j & z & Hz & _ & Ez & L). destruct L as [(E & _)|E].
    - assert (j = w) by congruence. subst j. congruence.
    - destruct (a_inner Hs _ Hx E) as (w' & y' & Ew & R & _). assert (w' = w) by congruence. subst w'. eauto 10. }
  induction H as [i o Hi|w u e Hu H IH|w u Hu H IH|w u j o Hu H IH Hj IHj].
  - destruct (a_set Hs _ _ Hi) as (x & Hx & _ & E). eauto.
  - destruct (a_unw Hs _ _ Hu) as (x & Hx & Es). exists x. split; [exact Hx|]. intros Eo. destruct (G _ _ _ Hu Hx Es Eo IH) as (j & y & _ & R & _). pose proof (res_fun Hs H R). discriminate.
  - destruct (a_unw Hs _ _ Hu) as (x & Hx & Es). exists x. split; [exact Hx|]. intros Eo. destruct (G _ _ _ Hu Hx Es Eo IH) as (j & y & _ & R & _). pose proof (res_fun Hs H R). discriminate.
  - destruct (a_unw Hs _ _ Hu) as (x & Hx & Es). exists x. split; [exact Hx|]. intros Eo. destruct (G _ _ _ Hu Hx Es Eo IH) as (j' & y & _ & R & Hy & Ey). pose proof (res_fun Hs H R) as E. injection E as <-.
    destruct IHj as (y' & Hy' & Ey'). congruence.
Qed.

(** following the continuations leads to a promise or a deferred function: no state is the continuation of two, and the first is with the user *)
Fixpoint path (l : list st) (i0 : nat) (p : list nat) : Prop :=
  match p with
  | [] => False
  | [c] => c = i0
  | c :: ((d :: _) as q) => (exists y, nth_error l c = Some y /\ In d (conts y)) /\ path l i0 q
  end.
Lemma path_in s i0 p j u y : inv s -> (exists x, nth_error (sts s) i0 = Some x /\ user x = true) -> path (sts s) i0 (u :: p) -> NoDup (u :: p) -> nth_error (sts s) j = Some y -> In u (conts y) -> ~ In j (u :: p).
Proof.
  intros HI (x0 & Hx0 & Hu0) Hp Hnd Hy Hin Hj.
  destruct (i_conts HI _ _ Hy Hin) as (_ & xu & Hxu & Lu).
  assert (Hj0 : j <> i0). { intros ->. pose proof (linked_user _ HI Hxu Lu Hx0). congruence. }
  assert (G : forall q, path (sts s) i0 q -> In j q -> exists v, In v (tl q) /\ In v (conts y)).
  { induction q as [|c q IH]; intros Hq Hjq; [destruct Hjq|]. destruct q as [|d q].
    - cbn in Hq. subst c. destruct Hjq as [->|[]]. congruence.
    - destruct Hq as ((yc & Hyc & Hd) & Hq). destruct Hjq as [->|Hjq].
      + exists d. split; [left; reflexivity|]. congruence.
      + destruct (IH Hq Hjq) as (v & Hv & Hvc). exists v. split; [right; exact Hv|exact Hvc]. }
  destruct (G _ Hp Hj) as (v & Hv & Hvc). cbn in Hv. destruct (i_conts HI _ _ Hy Hvc) as (_ & xv & Hxv & Lv).
  assert (v = u) by (eapply (@linked_uniq s); eauto). subst v. inversion Hnd; subst. contradiction.
Qed.
Lemma nodup_bound (l : list nat) n : NoDup l -> (forall x, In x l -> x < n) -> length l <= n.
Proof. intros H Hx. rewrite <- (seq_length n 0). apply NoDup_incl_length; [exact H|]. intros x Hin. apply in_seq. specialize (Hx _ Hin). lia. Qed.
Lemma path_lt s i0 p : (exists x, nth_error (sts s) i0 = Some x) -> path (sts s) i0 p -> forall k, In k p -> k < length (sts s).
Proof.
  intros (x & Hx). induction p as [|c q IH]; intros Hp k Hk; [destruct Hk|]. destruct q as [|d q].
  - cbn in Hp. subst. destruct Hk as [<-|[]]. apply nth_error_Some. congruence.
  - destruct Hp as ((y & Hy & _) & Hp). destruct Hk as [<-|Hk]; [apply nth_error_Some; congruence|auto].
Qed.
Lemma rest_needs_aux s i0 : inv s -> at_rest s -> (exists x, nth_error (sts s) i0 = Some x /\ user x = true) ->
  forall m c p x, length (sts s) - length p <= m -> path (sts s) i0 (c :: p) -> NoDup (c :: p) -> nth_error (sts s) c = Some x -> out x = None -> exists q, needs NO_STATE (hist s) c q.
Proof.
  intros HI Hr Hi0. assert (Hi0' : exists x, nth_error (sts s) i0 = Some x) by (destruct Hi0 as (x & Hx & _); eauto).
  induction m as [|m IH]; intros c p x Hm Hp Hnd Hx Ho.
  - exfalso. pose proof (@nodup_bound (c :: p) (length (sts s)) Hnd (@path_lt s i0 _ Hi0' Hp)) as B. cbn in B. lia.
  - pose proof (a_src (i_sta HI) _ Hx) as A. destruct (src x) as [| |w] eqn:Es.
    1, 2: exists c; eapply N_self; [exact A|]; intros o Hs; destruct (a_set (i_sta HI) _ _ Hs) as (x' & Hx' & _ & E); congruence.
    destruct A as (A & _). destruct (@rest_link s c x w HI Hr Hx Es Ho) as (j & y & Hy & Hin & Hoy & L).
    pose proof (@path_in s i0 p j c y HI Hi0 Hp Hnd Hy Hin) as Nj.
    assert (Hp' : path (sts s) i0 (j :: c :: p)) by (split; [eauto|exact Hp]).
    assert (Hnd' : NoDup (j :: c :: p)) by (constructor; assumption).
    assert (Hm' : length (sts s) - length (c :: p) <= m) by (cbn [length]; lia).
    destruct (IH j (c :: p) y Hm' Hp' Hnd' Hy Hoy) as (q & Hq). exists q. destruct L as [(E & _)|E].
    + assert (w = j) by congruence. subst w. eapply N_outer; eauto.
    + destruct (a_inner (i_sta HI) _ Hx E) as (w' & y' & Ew & R & _). assert (w' = w) by congruence. subst w'. eapply N_inner; eauto.
Qed.
Lemma needs_new s i p : sta s -> needs NO_STATE (hist s) i p -> exists n d, In (ENew p n d) (hist s) /\ forall o, ~ In (ESet p o) (hist s).
Proof. intros HI H. induction H; eauto. Qed.

(** ** A bound *)
Definition ph (x : st) : nat := match src x, out x with Unwrapped _, None => match inner x with None => 3 | Some _ => 1 end | _, _ => 0 end.
Definition fa (f : frame) : nat := match f with FAttach _ _ => 1 | _ => 0 end.
Definition m1 (s : sys) : nat := sumi (fun _ x => ph x) 0 (sts s) + sumi (fun _ z => list_sum (map fa (fs z))) 0 (thrs s).
Definition m2 (ts : list thr) : nat := sumi (fun _ z => match wt z with Some _ => 1 | None => 0 end) 0 ts.
Definition S1 (l : list st) : nat := sumi (fun _ x => ph x) 0 l.
Lemma S1_le l i g : (forall x, nth_error l i = Some x -> ph (g x) <= ph x) -> S1 (modify l i g) <= S1 l.
Proof.
  intros H. destruct (nth_error l i) as [x|] eqn:E.
  - pose proof (@sumi_modify _ (fun _ x => ph x) l g i 0 x E) as F. cbn beta in F. unfold S1. specialize (H _ eq_refl). lia.
  - rewrite (modify_none _ _ _ E). auto.
Qed.
Lemma ph_out o x : ph (set_out o x) = 0.
Proof. unfold ph. cbn. destruct (src x); reflexivity. Qed.
Lemma S1_out l i o : S1 (modify l i (set_out o)) <= S1 l.
Proof. apply S1_le. intros. rewrite ph_out. lia. Qed.
Lemma S1_give b o l : S1 (give b o l) <= S1 l.
Proof. destruct o as [| |[j|]|]; cbn [give]; auto. apply S1_le. intros. unfold ph. cbn. lia. Qed.
Lemma S1_finish l i o x : nth_error l i = Some x -> S1 (fst (finish l i o)) + ph x = S1 l.
Proof.
  intros H. unfold finish. rewrite H. cbn [fst]. pose proof (@sumi_modify _ (fun _ x => ph x) l (fun z => set_conts [] (set_out o z)) i 0 x H) as F. cbn beta in F.
  assert (E : ph (set_conts [] (set_out o x)) = 0) by (unfold ph; cbn; destruct (src x); reflexivity). unfold S1. lia.
Qed.
Lemma S1_finish_le l i o : S1 (fst (finish l i o)) <= S1 l.
Proof. destruct (nth_error l i) as [x|] eqn:E; [pose proof (S1_finish l i o E); lia|]. unfold finish. rewrite E. cbn. auto. Qed.
Lemma S1_attach l u j : S1 (fst (attach l u j)) <= S1 l.
Proof. unfold attach. destruct (nth_error l j) as [y|]; [|cbn; auto]. destruct (out y); cbn [fst]; apply S1_le; intros; unfold ph; cbn; lia. Qed.
Definition fw (f : list frame) : nat := list_sum (map fa f).
Lemma fw_app f g : fw (f ++ g) = fw f + fw g.
Proof. unfold fw. rewrite map_app, list_sum_app. reflexivity. Qed.
Lemma fw_launch l : fw (map FLaunch l) = 0.
Proof. induction l; auto. Qed.
Lemma fw_finish l i o : fw (snd (finish l i o)) = 0.
Proof. unfold finish. destruct (nth_error l i); cbn [snd]; [apply fw_launch|reflexivity]. Qed.
Lemma fw_attach l u j : fw (snd (attach l u j)) = 0.
Proof. unfold attach. destruct (nth_error l j) as [y|]; [|reflexivity]. destruct (out y); cbn [snd]; [apply fw_launch|reflexivity]. Qed.
Definition F1 (ts : list thr) : nat := sumi (fun _ z => fw (fs z)) 0 ts.
Lemma F1_upd ts t z z' : nth_error ts t = Some z -> F1 (upd_thr ts t z') + fw (fs z) = F1 ts + fw (fs z').
Proof. intros E. exact (@sumi_modify _ (fun _ z => fw (fs z)) ts (fun _ => z') t 0 z E). Qed.
Lemma m2_upd ts t z z' : nth_error ts t = Some z -> m2 (upd_thr ts t z') + match wt z with Some _ => 1 | None => 0 end = m2 ts + match wt z' with Some _ => 1 | None => 0 end.
Proof. intros E. exact (@sumi_modify _ (fun _ z => match wt z with Some _ => 1 | None => 0 end) ts (fun _ => z') t 0 z E). Qed.
Lemma m2_len ts : m2 ts <= length ts.
Proof.
  unfold m2. cut (forall k, sumi (fun _ z => match wt z with Some _ => 1 | None => 0 end) k ts <= length ts); [auto|].
  induction ts as [|z ts IH]; intros k; cbn; [auto|]. specialize (IH (S k)). destruct (wt z); lia.
Qed.

Lemma launch_down s u x l f : nth_error (sts s) u = Some x -> 0 < ph x -> launch (sts s) u = Some (l, f) -> S1 l + fw f < S1 (sts s).
Proof.
  intros Hx Hp He. unfold launch in He. rewrite Hx in He. destruct (src x) as [| |w] eqn:Es; try discriminate.
  assert (Eo : out x = None) by (unfold ph in Hp; rewrite Es in Hp; destruct (out x); [lia|auto]).
  assert (G : forall l0 o, S1 l0 <= S1 (sts s) -> (exists x', nth_error l0 u = Some x' /\ 0 < ph x') -> S1 (fst (finish l0 u o)) + fw (snd (finish l0 u o)) < S1 (sts s)).
  { intros l0 o Hl (x' & Hx' & Hp'). rewrite fw_finish. pose proof (S1_finish l0 u o Hx'). lia. }
  assert (T : forall k o, (forall y, nth_error (sts s) k = Some y -> out y <> None) -> exists x', nth_error (modify (sts s) k (set_out o)) u = Some x' /\ ph x' = ph x).
  { intros k o Hk. rewrite nth_modify. destruct (u =? k) eqn:E; [apply Nat.eqb_eq in E; subst k; exfalso; exact (Hk _ Hx Eo)|eauto]. }
  destruct (inner x) as [j|] eqn:Ei.
  - destruct (nth_error (sts s) j) as [y|] eqn:Hy; [|discriminate].
    assert (Hk : forall y', nth_error (sts s) j = Some y' -> out y <> None -> out y' <> None) by (intros y' H; congruence).
    destruct (out y) as [[v|e|o|]|] eqn:Ho; try discriminate; rewrite finish_eta in He; injection He as <- <-; apply G; eauto; try apply S1_out.
    + destruct (T j Taken) as (x' & A & B); [intros; eapply Hk; eauto; discriminate|]. exists x'. split; [exact A|lia].
    + destruct (T j Taken) as (x' & A & B); [intros; eapply Hk; eauto; discriminate|]. exists x'. split; [exact A|lia].
  - destruct (nth_error (sts s) w) as [y|] eqn:Hy; [|discriminate].
    assert (Hk : forall y', nth_error (sts s) w = Some y' -> out y <> None -> out y' <> None) by (intros y' H; congruence).
    destruct (out y) as [[v|e|[j|]|]|] eqn:Ho; try discriminate.
    + rewrite finish_eta in He. injection He as <- <-. apply G; eauto.
    + injection He as <- <-. destruct (T w Taken) as (x' & A & B); [intros; eapply Hk; eauto; discriminate|].
      assert (A' := A). rewrite nth_modify in A'. destruct (u =? w) eqn:E; [rewrite Hx in A'; cbn in A'; injection A' as <-; rewrite ph_out in B; lia|]. assert (x' = x) by congruence. subst x'.
      pose proof (@sumi_modify _ (fun _ x => ph x) _ (set_inner j) u 0 x A) as F. cbn beta in F. fold (S1 (modify (modify (sts s) w (set_out Taken)) u (set_inner j))) in F. fold (S1 (modify (sts s) w (set_out Taken))) in F.
      pose proof (S1_out (sts s) w Taken). assert (P1 : ph (set_inner j x) = 1) by (unfold ph; cbn; rewrite Es, Eo; reflexivity). assert (P3 : ph x = 3) by (unfold ph; rewrite Es, Eo, Ei; reflexivity).
      change (fw [FAttach u j]) with 1. lia.
    + rewrite finish_eta in He. injection He as <- <-. apply G; [apply S1_out|]. destruct (T w Taken) as (x' & A & B); [intros; eapply Hk; eauto; discriminate|]. exists x'. split; [exact A|lia].
Qed.

Definition M (s : sys) : nat := S1 (sts s) + F1 (thrs s) + m2 (thrs s).
Lemma run_down s t s' : inv s -> exec s (LRun t) = Some s' -> M s' < M s /\ unwraps (hist s') = unwraps (hist s).
Proof.
  intros HI He. cbn in He. destruct (nth_error (thrs s) t) as [x|] eqn:Hx; [|discriminate]. unfold run in He. unfold M.
  destruct (fs x) as [|[u|u j] fr] eqn:Hf.
  - destruct (wt x) as [i|] eqn:Hw; [|discriminate]. destruct (nth_error (sts s) i) as [y|]; [|discriminate]. destruct (out y); [|discriminate]. injection He as <-. cbn [sts thrs hist].
    pose proof (F1_upd (thrs s) t (Thr [] None) Hx) as E1. pose proof (m2_upd (thrs s) t (Thr [] None) Hx) as E2. rewrite Hf in E1. rewrite Hw in E2. cbn [fs wt] in *. change (fw []) with 0 in E1. split; [lia|reflexivity].
  - destruct (launch (sts s) u) as [[l f]|] eqn:El; [|discriminate]. injection He as <-. cbn [sts thrs hist]. split; [|reflexivity].
    pose proof (F1_upd (thrs s) t (Thr (f ++ fr) (wt x)) Hx) as E1. pose proof (m2_upd (thrs s) t (Thr (f ++ fr) (wt x)) Hx) as E2. rewrite Hf in E1. cbn [fs wt] in *. rewrite fw_app in E1.
    change (fw (FLaunch u :: fr)) with (fw fr) in E1. destruct (@only_here _ _ _ _ _ HI Hx Hf) as (Hw & _). cbn [fu] in Hw.
    unfold want in Hw. destruct (nth_error (sts s) u) as [xu|] eqn:Hu; [|discriminate]. unfold want1 in Hw. destruct (src xu) eqn:Es; try discriminate. destruct (out xu) eqn:Eo; [discriminate|].
    assert (Hp : 0 < ph xu) by (unfold ph; rewrite Es, Eo; destruct (inner xu); lia). pose proof (@launch_down s u xu l f Hu Hp El). lia.
  - rewrite attach_eta in He. injection He as <-. cbn [sts thrs hist]. split; [|reflexivity].
    pose proof (F1_upd (thrs s) t (Thr (snd (attach (sts s) u j) ++ fr) (wt x)) Hx) as E1. pose proof (m2_upd (thrs s) t (Thr (snd (attach (sts s) u j) ++ fr) (wt x)) Hx) as E2. rewrite Hf in E1. cbn [fs wt] in *.
    rewrite fw_app, fw_attach in E1. change (fw (FAttach u j :: fr)) with (S (fw fr)) in E1. pose proof (S1_attach (sts s) u j). lia.
Qed.
Lemma M1_bound n s : reach n s -> S1 (sts s) + F1 (thrs s) <= 3 * unwraps (hist s).
Proof.
  induction 1 as [|s l s' Hr IH He].
  - cbn. apply Nat.eq_le_incl, sumi_zero. intros i x Hx. apply nth_error_In, repeat_spec in Hx. subst. reflexivity.
  - pose proof (inv_reach Hr) as HI.
    assert (K : forall t x f w l0 e, nth_error (thrs s) t = Some x -> fs x = [] -> fw f = 0 -> S1 l0 <= S1 (sts s) -> unwraps e = 0 ->
       S1 l0 + F1 (upd_thr (thrs s) t (Thr f w)) <= 3 * unwraps (e ++ hist s)).
    { intros t x f w l0 e Hx Hf Hw Hl Hu. pose proof (F1_upd (thrs s) t (Thr f w) Hx) as E1. rewrite Hf in E1. cbn [fs] in E1. change (fw []) with 0 in E1. unfold unwraps in *. rewrite filter_app, app_length. lia. }
    destruct l as [t0 o|t0|t0 o].
    + cbn in He. destruct (nth_error (thrs s) t0) as [x|] eqn:Hx; [|discriminate]. unfold idle in He. destruct (fs x) eqn:Hf; [|discriminate]. destruct (wt x) eqn:Hw; [discriminate|].
      destruct o as [k d|i o|i|i|i]; cbn in He.
      * injection He as <-. cbn [sts thrs hist]. unfold S1. rewrite sumi_app. unfold S1 in IH. unfold ph at 2. cbn [sumi src out inner]. change (unwraps (ENew (length (sts s)) k d :: hist s)) with (unwraps (hist s)). destruct d; cbn [src]; lia.
      * destruct (nth_error (sts s) i) as [y|] eqn:Hy; [|discriminate]. destruct (src y); try discriminate. destruct (out y); [discriminate|]. destruct (has_type (sts s) (ty y) o && movable_in s o); [|discriminate]. rewrite finish_eta in He. injection He as <-. cbn [sts thrs hist].
        apply (K t0 x _ _ _ [ESet i o]); auto; [apply fw_finish|]. pose proof (S1_finish_le (give false o (sts s)) i o). pose proof (S1_give false o (sts s)). lia.
      * destruct (nth_error (sts s) i) as [y|] eqn:Hy; [|discriminate]. destruct (ty y) as [|k]; [discriminate|]. destruct (movable s i); [|discriminate]. rewrite attach_eta in He. injection He as <-. cbn [sts thrs hist].
        match goal with |- context [attach ?l0 ?u ?j] => pose proof (S1_attach l0 u j) as A; pose proof (fw_attach l0 u j) as B; generalize dependent (attach l0 u j) end. intros [l1 f1] A B. cbn [fst snd] in *.
        unfold S1 in A at 2. rewrite sumi_app in A. cbn [sumi] in A. unfold ph in A at 2. cbn [src out inner] in A. fold (S1 (modify (sts s) i (set_user false))) in A.
        assert (A' : S1 (modify (sts s) i (set_user false)) <= S1 (sts s)) by (apply S1_le; intros; unfold ph; cbn; lia).
        pose proof (F1_upd (thrs s) t0 (Thr f1 None) Hx) as E1. rewrite Hf in E1. cbn [fs] in E1. change (fw []) with 0 in E1. unfold unwraps in *. cbn [filter length]. lia.
      * destruct (nth_error (sts s) i) as [y|] eqn:Hy; [|discriminate]. destruct (user y); [|discriminate]. injection He as <-. cbn [sts thrs hist]. apply (K t0 x _ _ _ [EWaits t0 i]); auto.
      * destruct (nth_error (sts s) i) as [y|] eqn:Hy; [|discriminate]. destruct (out y) as [o|]; [|discriminate]. destruct (movable s i); [|discriminate]. injection He as <-. cbn [sts thrs hist].
        change (unwraps (EGot t0 i o :: hist s)) with (unwraps (hist s)).
        match goal with |- S1 ?l0 + _ <= _ => assert (A : S1 l0 <= S1 (sts s)) end; [|lia].
        repeat first [eapply Nat.le_trans; [apply S1_give|] | eapply Nat.le_trans; [apply S1_out|] | eapply Nat.le_trans; [apply S1_le; intros; unfold ph; cbn; destruct (src x0); lia|]]; auto.
    + pose proof (@run_down s t0 s' HI He) as (D & E). rewrite E. unfold M in D. cbn in He. destruct (nth_error (thrs s) t0) as [x|] eqn:Hx; [|discriminate]. unfold run in He.
      destruct (fs x) as [|[u|u j] fr] eqn:Hf.
      * destruct (wt x) as [i|] eqn:Hw; [|discriminate]. destruct (nth_error (sts s) i) as [y|]; [|discriminate]. destruct (out y); [|discriminate]. injection He as <-. cbn [sts thrs hist] in *.
        pose proof (F1_upd (thrs s) t0 (Thr [] None) Hx) as E1. rewrite Hf in E1. cbn [fs] in E1. lia.
      * destruct (launch (sts s) u) as [[l f]|] eqn:El; [|discriminate]. injection He as <-. cbn [sts thrs hist] in *. pose proof (m2_upd (thrs s) t0 (Thr (f ++ fr) (wt x)) Hx) as E2. cbn [wt] in E2. lia.
      * rewrite attach_eta in He. injection He as <-. cbn [sts thrs hist] in *. pose proof (m2_upd (thrs s) t0 (Thr (snd (attach (sts s) u j) ++ fr) (wt x)) Hx) as E2. cbn [wt] in E2. lia.
    + cbn in He. destruct (nth_error (thrs s) t0) as [x|] eqn:Hx; [|discriminate]. unfold run_deferred in He. destruct (fs x) eqn:Hf; [|discriminate]. destruct (wt x) as [i|] eqn:Hw; [|discriminate]. destruct (nth_error (sts s) i) as [y|]; [|discriminate].
      destruct (src y); try discriminate. destruct (started y); [discriminate|]. destruct (has_type (sts s) (ty y) o && movable_in s o); [|discriminate]. rewrite finish_eta in He. injection He as <-. cbn [sts thrs hist].
      apply (K t0 x _ _ _ [ESet i o]); auto; [apply fw_finish|]. pose proof (S1_finish_le (give false o (modify (sts s) i set_started)) i o). pose proof (S1_give false o (modify (sts s) i set_started)).
      assert (S1 (modify (sts s) i set_started) <= S1 (sts s)) by (apply S1_le; intros; unfold ph; cbn; lia). lia.
Qed.
Lemma runs_bound n ls : forall s s', reach n s -> runl s ls = Some s' -> Forall (fun l => exists t, l = LRun t) ls -> length ls + M s' <= M s.
Proof.
  induction ls as [|l ls IH]; intros s s' Hr He Hf; cbn in He.
  - injection He as <-. cbn. lia.
  - inversion Hf as [|? ? (t & ->) Hf']; subst. destruct (exec s (LRun t)) as [s1|] eqn:E; [|discriminate].
    destruct (@run_down s t s1 (inv_reach Hr) E) as (D & _). specialize (IH s1 s' (r_step _ Hr E) He Hf'). cbn [length]. lia.
Qed.

(** ** The properties *)
Lemma stuck n s t i : reach n s -> at_rest s -> waits t (hist s) = Some i ->
  (forall o, ~ res (hist s) i o) /\ exists p, needs NO_STATE (hist s) i p /\ (is_promise (hist s) p \/ p <> i).
Proof.
  intros Hr Ha Hw. pose proof (inv_reach Hr) as HI. destruct (waits_thread t Hr Hw) as (z & Hz & Ez).
  destruct (i_wt HI _ Hz Ez) as (x & Hx & Hu). pose proof (rest_frames HI Ha _ Hz) as Hf. destruct (Ha t) as (HR & HD).
  assert (Ho : out x = None).
  { cbn in HR. rewrite Hz in HR. unfold run in HR. rewrite Hf, Ez, Hx in HR. destruct (out x); [discriminate|reflexivity]. }
  split.
  - intros o H. destruct (rest_resolved HI Ha H) as (x' & Hx' & E). congruence.
  - assert (Hnd : NoDup [i]) by (constructor; [intros []|constructor]).
    destruct (@rest_needs_aux s i HI Ha (ex_intro _ x (conj Hx Hu)) _ i [] x (le_n _) (eq_refl i) Hnd Hx Ho) as (p & Hp). exists p. split; [exact Hp|].
    destruct (Nat.eq_dec p i) as [->|]; [left|auto]. destruct (needs_new (i_sta HI) Hp) as (m & d & Hn & _). pose proof (a_src (i_sta HI) _ Hx) as A.
    destruct (src x) as [| |w] eqn:Es.
    + exists (ty x). exact A.
    + exfalso. assert (started x = false) as Est.
      { pose proof (a_def (i_sta HI) _ Hx Es) as D. destruct (started x); [|reflexivity]. destruct (proj1 D eq_refl). exact Ho. }
      specialize (HD (Exc 0)). cbn in HD. rewrite Hz in HD. unfold run_deferred in HD. rewrite Hf, Ez, Hx, Es, Est in HD. cbn [has_type movable_in andb] in HD. rewrite finish_eta in HD. destruct (ty x); discriminate.
    + exfalso. destruct (a_new (i_sta HI) _ _ _ Hn) as (x' & Hx' & E). assert (x' = x) by congruence. subst. rewrite Es in E. destruct d; congruence.
Qed.
Lemma stuck_promise n s t i : reach n s -> at_rest s -> waits t (hist s) = Some i -> (forall j m, ~ In (ENew j m true) (hist s)) ->
  exists p, needs NO_STATE (hist s) i p /\ is_promise (hist s) p.
Proof.
  intros Hr Ha Hw Hd. destruct (@stuck n s t i Hr Ha Hw) as (_ & p & Hp & _). exists p. split; [exact Hp|].
  destruct (needs_new (i_sta (inv_reach Hr)) Hp) as (m & [|] & Hn & _); [exfalso; eapply Hd; eauto|exists m; exact Hn].
Qed.
Lemma steps_bound n s ls s' : reach n s -> runl s ls = Some s' -> Forall (fun l => exists t, l = LRun t) ls -> length ls <= 3 * unwraps (hist s) + n.
Proof. intros Hr He Hf. pose proof (runs_bound Hr He Hf). pose proof (M1_bound Hr). pose proof (m2_len (thrs s)). rewrite (thrs_len Hr) in *. unfold M in *. lia. Qed.
Lemma no_assertion n s t z : reach n s -> nth_error (thrs s) t = Some z -> fs z <> [] -> exec s (LRun t) <> None.
Proof. intros Hr. apply frame_runs. exact (inv_reach Hr). Qed.
