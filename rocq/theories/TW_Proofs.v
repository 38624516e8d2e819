(** Proofs about timed waiting. *)
From Verif Require Import TW_Model TW_Spec.
Import ListNotations.

Lemma run_done r tr r' : run (Done r) tr = Some (Done r') -> tr = [] /\ r = r'.
Proof. destruct tr; cbn; [intros [= ->]; auto|discriminate]. Qed.
Lemma last_one m : last_moment [m] m. Proof. exists []. reflexivity. Qed.
Lemma last_cons m0 tr m : last_moment tr m -> last_moment (m0 :: tr) m.
Proof. intros [tr' ->]. exists (m0 :: tr'). reflexivity. Qed.
Lemma last_In tr m : last_moment tr m -> In m tr.
Proof. intros [tr' ->]. apply in_or_app. right. now left. Qed.
Lemma reached_cons t m tr : reached t tr -> reached t (m :: tr).
Proof. intros (x & H & Hx). exists x. split; [now right|exact Hx]. Qed.
Lemma reached_here t m tr : t <= um m -> reached t (m :: tr).
Proof. intros H. exists m. split; [now left|exact H]. Qed.
Lemma ck_some z d : ck z = Some d -> d = z /\ fits z.
Proof. unfold ck, in64, MIN64, MAX64. destruct ((_ <=? _) && _) eqn:E; [|discriminate]. intros [= <-]. apply andb_prop in E as [E1 E2].
  apply Z.leb_le in E1. apply Z.leb_le in E2. unfold fits. lia. Qed.
Lemma ck_fits z : fits z -> ck z = Some z.
Proof. intros [H1 H2]. unfold ck, in64, MIN64, MAX64. rewrite (proj2 (Z.leb_le _ _) H1), (proj2 (Z.leb_le _ _) H2). reflexivity. Qed.

Lemma stable_tail p m tr : stable p (m :: tr) -> stable (tell p m) tr.
Proof. destruct tr; cbn; tauto. Qed.


(** ** with a predicate, any clock *)
Definition up (t : Z) (p : pc) : Prop :=
  match p with UP_pred t' | UP_now t' | UP_int t' _ | UP_wait t' _ => t' = t | _ => False end.

Lemma pred_result tr b : run PredResult tr = Some (Done (RBool b)) -> exists m, tr = [m] /\ pm m = b.
Proof. destruct tr as [|m tr]; cbn; [discriminate|]. intros H. apply run_done in H as [-> [= <-]]. eauto. Qed.

Lemma up_result t tr : forall p b, up t p -> run p tr = Some (Done (RBool b)) ->
  (exists m, last_moment tr m /\ pm m = b) /\ (b = false -> stable p tr -> reached t tr).
Proof.
  induction tr as [|m tr IH]; intros p b Hp Hrun; [destruct p; try contradiction; discriminate|].
  destruct p as [t'|t'|t' d|t' ts| | | | | | | | | | | | | | | | | | | | | | |]; try contradiction; cbn in Hp; subst t'; cbn [run ask tell] in Hrun.
  - destruct (pm m) eqn:Em.
    + apply pred_result in Hrun as (m' & -> & <-). split; [exists m'; split; [apply last_cons, last_one|reflexivity]|].
      intros Hb [Hs _]. cbn in Hs. rewrite Em in Hs. specialize (Hs eq_refl eq_refl eq_refl). congruence.
    + destruct (IH (UP_now t) b eq_refl Hrun) as ((m' & Hm & Hb) & Hr). split; [exists m'; split; [apply last_cons, Hm|exact Hb]|].
      intros Hf Hs. apply reached_cons. apply Hr; auto. apply stable_tail in Hs. cbn in Hs. rewrite Em in Hs. exact Hs.
  - destruct (ck (t - um m)) as [d|] eqn:Ek; cbn in Hrun; [|apply run_done in Hrun as [_ Hx]; discriminate].
    pose proof (ck_some _ _ Ek) as [-> _].
    destruct (Z.leb_spec (t - um m) 0).
    + apply pred_result in Hrun as (m' & -> & <-). split; [exists m'; split; [apply last_cons, last_one|reflexivity]|].
      intros _ _. apply reached_here. lia.
    + destruct (IH (UP_int t (Z.min (t - um m) POLL)) b eq_refl Hrun) as ((m' & Hm & Hb) & Hr). split; [exists m'; split; [apply last_cons, Hm|exact Hb]|].
      intros Hf Hs. apply reached_cons. apply Hr; auto. apply stable_tail in Hs. cbn [tell] in Hs. rewrite Ek in Hs. cbn [orub] in Hs.
      destruct (Z.leb_spec (t - um m) 0); [lia|exact Hs].
  - destruct (ck (im m + d)) as [x|] eqn:Ek; cbn in Hrun; [|apply run_done in Hrun as [_ Hx]; discriminate].
    destruct (IH (UP_wait t x) b eq_refl Hrun) as ((m' & Hm & Hb) & Hr). split; [exists m'; split; [apply last_cons, Hm|exact Hb]|].
    intros Hf Hs. apply reached_cons. apply Hr; auto. apply stable_tail in Hs. cbn [tell] in Hs. rewrite Ek in Hs. exact Hs.
  - assert (Ht : orthrow (wm m) (UP_pred t) = UP_pred t)
      by (unfold orthrow, throws in *; destruct (wm m); auto; apply run_done in Hrun as [_ Hx]; discriminate).
    rewrite Ht in Hrun. destruct (IH (UP_pred t) b eq_refl Hrun) as ((m' & Hm & Hb) & Hr).
    split; [exists m'; split; [apply last_cons, Hm|exact Hb]|].
    intros Hf Hs. apply reached_cons. apply Hr; auto. apply stable_tail in Hs. cbn [tell] in Hs. rewrite Ht in Hs. exact Hs.
Qed.

(** ** with a predicate, internal clock *)
Definition ip (t : Z) (p : pc) : Prop := match p with IP_pred t' | IP_wait t' => t' = t | _ => False end.
Definition ireached (t : Z) (tr : list moment) : Prop := exists m, In m tr /\ t <= im m.
Lemma ip_result t tr : forall p b now, ip t p -> run p tr = Some (Done (RBool b)) -> honest now p tr ->
  (exists m, last_moment tr m /\ pm m = b) /\ (b = false -> stable p tr -> ireached t tr).
Proof.
  induction tr as [|m tr IH]; intros p b now Hp Hrun Hh; [destruct p; try contradiction; discriminate|].
  destruct p; try contradiction; cbn in Hp; subst t0; cbn [run ask tell] in Hrun; cbn [honest ask tell] in Hh; destruct Hh as (Hle & Hw & Hh).
  - destruct (pm m) eqn:Em.
    + apply pred_result in Hrun as (m' & -> & <-). split; [exists m'; split; [apply last_cons, last_one|reflexivity]|].
      intros Hb [Hs _]. cbn in Hs. rewrite Em in Hs. specialize (Hs eq_refl eq_refl eq_refl). congruence.
    + destruct (IH (IP_wait t) b _ eq_refl Hrun Hh) as ((m' & Hm & Hb) & Hr). split; [exists m'; split; [apply last_cons, Hm|exact Hb]|].
      intros Hf Hs. apply stable_tail in Hs. cbn in Hs. rewrite Em in Hs. destruct (Hr Hf Hs) as (x & Hx & Hi). exists x. split; [now right|exact Hi].
  - unfold orthrow, throws in *. destruct (wm m) eqn:Ew; try (apply run_done in Hrun as [_ Hx]; discriminate).
    + destruct (IH (IP_pred t) b _ eq_refl Hrun Hh) as ((m' & Hm & Hb) & Hr). split; [exists m'; split; [apply last_cons, Hm|exact Hb]|].
      intros Hf Hs. apply stable_tail in Hs. cbn in Hs. unfold orthrow, throws in Hs. rewrite Ew in Hs. destruct (Hr Hf Hs) as (x & Hx & Hi). exists x. split; [now right|exact Hi].
    + apply pred_result in Hrun as (m' & -> & <-). split; [exists m'; split; [apply last_cons, last_one|reflexivity]|].
      intros _ _. exists m. split; [now left|]. now apply Hw.
Qed.

Lemma honest_le now p tr m : honest now p tr -> In m tr -> now <= im m.
Proof.
  revert now p. induction tr as [|x tr IH]; intros now p; [contradiction|]. cbn. intros (H & _ & Hh) [->|Hin]; [exact H|].
  specialize (IH _ _ Hh Hin). lia.
Qed.
Lemma ireached_last t tr p now m : honest now p tr -> ireached t tr -> last_moment tr m -> t <= im m.
Proof.
  intros Hh (x & Hx & Ht) [tr' ->]. revert now p Hh Hx. induction tr' as [|y tr' IH]; intros now p Hh Hx.
  - destruct Hx as [->|[]]; exact Ht.
  - cbn in Hh. destruct Hh as (_ & _ & Hh). destruct Hx as [->|Hx]; [|exact (IH _ _ Hh Hx)].
    assert (im x <= im m) by (eapply honest_le; [exact Hh|apply in_or_app; right; now left]). lia.
Qed.

(** wait_for with a predicate *)
Lemma for_pred_result p0 b0 d tr b now : run (For_int p0 b0 d) tr = Some (Done (RBool b)) -> p0 = true -> honest now (For_int p0 b0 d) tr ->
  (exists m, last_moment tr m /\ pm m = b) /\
  (b = false -> stable (For_int p0 b0 d) tr -> exists m, last_moment tr m /\ now + d <= im m).
Proof.
  intros Hrun -> Hh. destruct tr as [|m tr]; [discriminate|]. cbn [run ask tell] in Hrun. cbn [honest ask tell] in Hh. destruct Hh as (Hle & _ & Hh).
  destruct (ck (im m + d)) as [t|] eqn:Ek; cbn [orub] in *; [|apply run_done in Hrun as [_ Hx]; discriminate].
  pose proof (ck_some _ _ Ek) as [-> _].
  destruct (ip_result (im m + d) tr (IP_pred (im m + d)) b (im m) eq_refl Hrun Hh) as ((m' & Hm & Hb) & Hr). split; [exists m'; split; [apply last_cons, Hm|exact Hb]|].
  intros Hf Hs. exists m'. split; [apply last_cons, Hm|]. apply stable_tail in Hs. cbn [tell] in Hs. rewrite Ek in Hs. cbn [orub] in Hs.
  pose proof (ireached_last _ _ _ _ _ Hh (Hr Hf Hs) Hm). lia.
Qed.

(** ** without a predicate *)
Lemma u_result ab t tr r : run (U_now ab t) tr = Some (Done r) ->
  r = RInterrupted \/ r = RConditionError \/ r = RUndefined \/ exists m, last_moment tr m /\ r = status ab (t <=? um m).
Proof.
  intros H. destruct tr as [|m tr]; [discriminate|]. cbn [run ask tell] in H.
  destruct (ck (t - um m)) as [d|]; cbn [orub] in H; [|apply run_done in H as [_ <-]; auto].
  destruct tr as [|m2 tr]; [discriminate|]. cbn [run ask tell] in H.
  destruct (ck (im m2 + d)) as [ts|]; cbn [orub] in H; [|apply run_done in H as [_ <-]; auto].
  destruct tr as [|m3 tr]; [discriminate|]. cbn [run ask tell] in H. unfold orthrow, throws in H.
  destruct (wm m3); try (apply run_done in H as [_ <-]; auto; fail);
    (destruct tr as [|m4 tr]; [discriminate|]; cbn [run ask tell] in H; apply run_done in H as [-> <-]; right; right; right;
     exists m4; split; [exists [m; m2; m3]; reflexivity|]; f_equal; rewrite Z.leb_antisym; reflexivity).
Qed.

Lemma i_result ab t tr r now : run (I_wait ab t) tr = Some (Done r) -> honest now (I_wait ab t) tr ->
  r = RInterrupted \/ (r = RConditionError /\ os_rejects t = true) \/
  exists m, last_moment tr m /\ exists b, r = status ab b /\ (b = true -> t <= im m) /\ (b = false -> wm m = Woken).
Proof.
  intros H Hh. destruct tr as [|m tr]; [discriminate|]. cbn [run ask tell] in H.
  cbn [honest ask tell] in Hh. destruct Hh as (_ & (Hw & Hj) & _). unfold orthrow, throws in H.
  destruct (wm m) eqn:E; apply run_done in H as [-> <-]; auto; right; right; exists m; (split; [apply last_one|]).
  - exists false. split; [reflexivity|]. split; [discriminate|auto].
  - exists true. split; [reflexivity|]. split; [intros _; now apply Hw|discriminate].
Qed.

Lemma for_result ab d tr r now : run (For_int false ab d) tr = Some (Done r) -> honest now (For_int false ab d) tr ->
  r = RInterrupted \/ (r = RConditionError /\ exists m, In m tr /\ im m + d < 0) \/ r = RUndefined \/
  exists m, last_moment tr m /\ exists b, r = status ab b /\ (b = true -> now + d <= im m) /\ (b = false -> wm m = Woken).
Proof.
  intros H Hh. destruct tr as [|m tr]; [discriminate|]. cbn [run ask tell] in H. cbn [honest ask tell] in Hh. destruct Hh as (Hle & _ & Hh).
  destruct (ck (im m + d)) as [t|] eqn:Ek; cbn [orub] in *; [|apply run_done in H as [_ <-]; auto].
  pose proof (ck_some _ _ Ek) as [-> _].
  destruct (i_result _ _ _ _ _ H Hh) as [->|[(-> & Hj)|(m' & Hm & b & Hb & H1 & H2)]]; [now left| |].
  - right. left. split; [reflexivity|]. exists m. split; [now left|]. unfold os_rejects in Hj. apply andb_prop in Hj as [Hj _]. now apply Z.ltb_lt in Hj.
  - right; right; right. exists m'. split; [apply last_cons, Hm|].
    exists b. split; [exact Hb|]. split; [|exact H2]. intros E. specialize (H1 E). lia.
Qed.

(** ** attempts *)
Definition ta (x : bool) (t : Z) (p : pc) : Prop :=
  match p with T_now x' t' | T_int x' t' _ | T_try x' t' _ | T_check x' t' => x' = x /\ t' = t | _ => False end.
Lemma ta_result x t tr : forall p r, ta x t p -> run p tr = Some (Done r) ->
  (x = false /\ (r = RInterrupted \/ r = RConditionError)) \/ r = RUndefined \/
  (exists m, last_moment tr m /\ ((r = RBool true /\ wm m = Woken) \/ (r = RBool false /\ t <= um m))) /\
  (match p with T_check _ _ => True | _ => (1 <= attempts p tr)%nat end).
Proof.
  induction tr as [|m tr IH]; intros p r Hp Hrun; [destruct p; try contradiction; discriminate|].
  destruct p; try contradiction; cbn in Hp; destruct Hp as [-> ->]; cbn [run ask tell] in Hrun; cbn [attempts ask].
  - destruct (ck (t - um m)) as [d|] eqn:Ek; cbn [orub] in *; [|apply run_done in Hrun as [_ <-]; auto].
    destruct (IH (T_int x t (Z.min d POLL)) r (conj eq_refl eq_refl) Hrun) as [H|[->|((m' & Hm & Hb) & Hn)]]; auto. right; right. split; [exists m'; split; [apply last_cons, Hm|exact Hb]|].
    cbn [tell]. rewrite Ek. cbn [orub Nat.add]. exact Hn.
  - destruct (ck (im m + d)) as [d'|] eqn:Ek; cbn [orub] in *; [|apply run_done in Hrun as [_ <-]; auto].
    destruct (IH (T_try x t d') r (conj eq_refl eq_refl) Hrun) as [H|[->|((m' & Hm & Hb) & Hn)]]; auto. right; right. split; [exists m'; split; [apply last_cons, Hm|exact Hb]|].
    cbn [tell]. rewrite Ek. cbn [orub Nat.add]. exact Hn.
  - assert (G : forall q, (q = T_check x t \/ q = T_try x t ts) -> run q tr = Some (Done r) ->
      x = false /\ (r = RInterrupted \/ r = RConditionError) \/ r = RUndefined \/
      (exists m0, last_moment (m :: tr) m0 /\ (r = RBool true /\ wm m0 = Woken \/ r = RBool false /\ t <= um m0)) /\
      (1 <= 1 + attempts (attempt x (wm m) (T_try x t ts) (T_check x t)) tr)%nat).
    { intros q Hq H. destruct (IH q r) as [H1|[->|((m' & Hm & Hb) & Hn)]]; auto; [destruct Hq as [-> | ->]; split; reflexivity|].
      right; right. split; [exists m'; split; [apply last_cons, Hm|exact Hb]|lia]. }
    cbn [tell]. unfold attempt in Hrun. destruct (wm m) eqn:Ew.
    + apply run_done in Hrun as [-> <-]. right; right. split; [exists m; split; [apply last_one|auto]|]. lia.
    + apply (G _ (or_introl eq_refl) Hrun).
    + destruct x; [apply (G _ (or_intror eq_refl) Hrun)|apply run_done in Hrun as [_ <-]; auto].
    + destruct x; [apply (G _ (or_intror eq_refl) Hrun)|apply run_done in Hrun as [_ <-]; auto].
  - destruct (ck (t - um m)) as [d|] eqn:Ek; cbn [orub] in *; [|apply run_done in Hrun as [_ <-]; auto].
    pose proof (ck_some _ _ Ek) as [-> _].
    destruct (Z.leb_spec (t - um m) 0).
    + apply run_done in Hrun as [-> <-]. right; right. split; [|exact I]. exists m. split; [apply last_one|]. right. split; [reflexivity|lia].
    + destruct (IH (T_int x t (Z.min (t - um m) POLL)) r (conj eq_refl eq_refl) Hrun) as [H1|[->|((m' & Hm & Hb) & Hn)]]; auto.
      right; right. split; [exists m'; split; [apply last_cons, Hm|exact Hb]|exact I].
Qed.

Lemma ti_result x ts tr : forall r now, run (TI_try x ts) tr = Some (Done r) -> honest now (TI_try x ts) tr ->
  (x = false /\ (r = RInterrupted \/ r = RConditionError /\ os_rejects ts = true)) \/
  exists m, last_moment tr m /\ ((r = RBool true /\ wm m = Woken) \/ (r = RBool false /\ ts <= im m /\ os_rejects ts = false)).
Proof.
  induction tr as [|m tr IH]; intros r now H Hh; [discriminate|].
  cbn [run ask tell] in H. cbn [honest ask tell] in Hh. destruct Hh as (Hle & (Hw & Hj) & Hh). unfold attempt in *.
  destruct (wm m) eqn:E.
  - apply run_done in H as [-> <-]. right. exists m. split; [apply last_one|auto].
  - apply run_done in H as [-> <-]. right. exists m. split; [apply last_one|]. right. split; [reflexivity|]. now apply Hw.
  - destruct x; [|apply run_done in H as [_ <-]; auto]. destruct (IH _ _ H Hh) as [H1|(m' & Hm & H1)]; auto. right. exists m'. split; [apply last_cons, Hm|exact H1].
  - destruct x; [|apply run_done in H as [_ <-]; left; split; [reflexivity|]; right; split; [reflexivity|now apply Hj]]. destruct (IH _ _ H Hh) as [H1|(m' & Hm & H1)]; auto. right. exists m'. split; [apply last_cons, Hm|exact H1].
Qed.
Lemma try_for_result x d tr r now : run (TFor_int x d) tr = Some (Done r) -> honest now (TFor_int x d) tr ->
  (x = false /\ (r = RInterrupted \/ r = RConditionError)) \/ r = RUndefined \/
  exists m, last_moment tr m /\ ((r = RBool true /\ wm m = Woken) \/ (r = RBool false /\ now + d <= im m)).
Proof.
  intros H Hh. destruct tr as [|m tr]; [discriminate|]. cbn [run ask tell] in H. cbn [honest ask tell] in Hh. destruct Hh as (Hle & _ & Hh).
  destruct (ck (im m + d)) as [t|] eqn:Ek; cbn [orub] in *; [|apply run_done in H as [_ <-]; auto].
  pose proof (ck_some _ _ Ek) as [-> _]. destruct (ti_result _ _ _ _ _ H Hh) as [(Hx & H1)|(m' & Hm & H1)].
  - left. split; [exact Hx|]. destruct H1 as [->|[-> _]]; auto.
  - right; right. exists m'. split; [apply last_cons, Hm|]. destruct H1 as [H1|(-> & H1 & _)]; [now left|right; split; [reflexivity|lia]].
Qed.

(** a rejected deadline: the attempt on a mutex does not time out *)
Lemma rejected_never_false t ts tr : os_rejects ts = true -> forall now r, honest now (T_try true t ts) tr -> run (T_try true t ts) tr = Some (Done r) -> r = RBool true.
Proof.
  intros Hj. induction tr as [|m tr IH]; intros now r Hh H; [discriminate|]. cbn [run ask tell] in H. cbn [honest ask tell] in Hh.
  destruct Hh as (_ & (Hw & _) & Hh). unfold attempt in *. destruct (wm m); try exact (IH _ _ Hh H).
  - apply run_done in H as [_ <-]. reflexivity.
  - destruct (Hw eq_refl) as [_ Hx]. congruence.
Qed.

(** ** sleeps *)
Definition sl (t : Z) (p : pc) : Prop := match p with S_now t' | S_sleep t' _ => t' = t | _ => False end.
Lemma sl_result t tr : forall p r, sl t p -> run p tr = Some (Done r) -> r = RUndefined \/ (r = RVoid /\ exists m, last_moment tr m /\ t <= um m).
Proof.
  induction tr as [|m tr IH]; intros p r Hp Hrun; [destruct p; try contradiction; discriminate|].
  destruct p; try contradiction; cbn in Hp; subst t0; cbn [run ask tell] in Hrun.
  - destruct (ck (t - um m)) as [d|] eqn:Ek; cbn [orub] in *; [|apply run_done in Hrun as [_ <-]; auto].
    pose proof (ck_some _ _ Ek) as [-> _].
    destruct (Z.ltb_spec 0 (t - um m)).
    + unfold sleep_for_internal in Hrun. destruct (0 <? Z.min (t - um m) POLL) eqn:E; [|apply Z.ltb_ge in E; unfold POLL in E; lia].
      destruct (IH (S_sleep t (Z.min (t - um m) POLL)) r eq_refl Hrun) as [->|(-> & m' & Hm & Hb)]; auto. right. split; [reflexivity|]. exists m'. split; [apply last_cons, Hm|exact Hb].
    + apply run_done in Hrun as [-> <-]. right. split; [reflexivity|]. exists m. split; [apply last_one|lia].
  - destruct (IH (S_now t) r eq_refl Hrun) as [->|(-> & m' & Hm & Hb)]; auto. right. split; [reflexivity|]. exists m'. split; [apply last_cons, Hm|exact Hb].
Qed.

Lemma sf_result d tr r now : run (nip_sleep_for d) tr = Some (Done r) -> honest now (nip_sleep_for d) tr -> no_signal tr ->
  r = RVoid /\ (0 < d -> exists m, last_moment tr m /\ now + d <= im m).
Proof.
  unfold nip_sleep_for, sleep_for_internal. intros H Hh Hn. destruct (Z.ltb_spec 0 d).
  - destruct tr as [|m tr]; [discriminate|]. cbn [run ask tell] in H. apply run_done in H as [-> <-]. split; [reflexivity|]. intros _. exists m. split; [apply last_one|].
    cbn [honest ask] in Hh. destruct Hh as (_ & Hw & _). apply Hw. specialize (Hn m (or_introl eq_refl)). destruct Hw as [_ [Hw|Hw]]; congruence.
  - apply run_done in H as [-> <-]. split; [reflexivity|lia].
Qed.

(** ** Lateness *)
Section Late.
  Variables (t X lat : Z).
  Hypothesis Hlat : 0 <= lat.

  Definition entry (p : pc) (now : Z) : Prop :=
    match p with
    | UP_pred t' => t' = t /\ now <= X + POLL + 2 * lat
    | UP_now t' => t' = t /\ now <= X + POLL + 3 * lat
    | UP_int t' d => t' = t /\ now <= X /\ d <= POLL
    | UP_wait t' ts => t' = t /\ now <= X + lat /\ ts <= X + lat + POLL
    | PredResult => now <= X + POLL + 4 * lat
    | T_now _ t' => t' = t /\ now <= X
    | T_int _ t' d => t' = t /\ now <= X + lat /\ d <= POLL
    | T_try _ t' ts => t' = t /\ now <= X + 2 * lat + POLL /\ ts <= X + 2 * lat + POLL
    | T_check _ t' => t' = t /\ now <= X + POLL + 3 * lat
    | S_now t' => t' = t /\ now <= X + POLL + lat
    | S_sleep t' d => t' = t /\ now <= X /\ d <= POLL
    | Done _ => True
    | _ => False
    end.

  Lemma late_bound tr : forall p now, entry p now -> run p tr <> None -> honest now p tr -> prompt lat now p tr ->
    (forall m, In m tr -> X <= im m -> t <= um m) -> (match p with T_now true _ | T_int true _ _ | T_try true _ _ | T_check true _ => quiet p tr | _ => True end) -> forall m, In m tr -> im m <= X + POLL + 5 * lat.
  Proof.
    assert (HP : 0 < POLL) by (unfold POLL; lia).
    induction tr as [|m tr IH]; intros p now He Hrun Hh Hp Hc Hwm m0 Hin; [contradiction|].
    assert (Hc' : forall x, In x tr -> X <= im x -> t <= um x) by (intros; apply Hc; auto; now right).
    assert (Hcm := Hc m (or_introl eq_refl)). 
    assert (G : im m <= X + POLL + 5 * lat /\ entry (tell p m) (im m)).
    { cbn [honest prompt] in Hh, Hp. destruct Hh as (Hle & _ & _). destruct Hp as [Hp _]. cbn [run] in Hrun.
      destruct p; cbn [entry] in He; try contradiction; cbn [ask tell] in *.
      - destruct He as [-> He]. split; [lia|]. destruct (pm m); cbn [entry]; [lia|split; [reflexivity|lia]].
      - destruct He as [-> He]. split; [lia|]. destruct (ck (t - um m)) as [d|] eqn:Ek; cbn [orub]; [|exact I]. pose proof (ck_some _ _ Ek) as [-> _].
        destruct (Z.leb_spec (t - um m) 0); cbn [entry]; [lia|]. split; [reflexivity|]. destruct (Z.le_gt_cases X (im m)) as [H'|H']; [specialize (Hcm H')|]; lia.
      - destruct He as (-> & He & Hd). split; [lia|]. destruct (ck (im m + d)) as [x|] eqn:Ek; cbn [orub]; [|exact I]. pose proof (ck_some _ _ Ek) as [-> _].
        cbn [entry]. split; [reflexivity|]. lia.
      - destruct He as (-> & He & Hd). split; [lia|]. unfold orthrow, throws. destruct (wm m); cbn [entry]; try exact I; (split; [reflexivity|lia]).
      - split; [lia|exact I].
      - destruct He as (-> & He). split; [lia|]. destruct (ck (t - um m)) as [d|] eqn:Ek; cbn [orub]; [|exact I]. cbn [entry]. split; [reflexivity|]. lia.
      - destruct He as (-> & He & Hd). split; [lia|]. destruct (ck (im m + d)) as [x|] eqn:Ek; cbn [orub]; [|exact I]. pose proof (ck_some _ _ Ek) as [-> _].
        cbn [entry]. split; [reflexivity|]. lia.
      - destruct He as (-> & He & Hd). split; [lia|]. unfold attempt. destruct (wm m) eqn:Ew; cbn [entry]; try exact I; [split; [reflexivity|lia]| |]; (destruct mx; [|exact I]);
        cbn [quiet ask tell] in Hwm; destruct Hwm as [[Hw1 Hw2] _]; [specialize (Hw1 Ew)|congruence]; cbn [entry]; (split; [reflexivity|lia]).
      - destruct He as (-> & He). split; [lia|]. destruct (ck (t - um m)) as [d|] eqn:Ek; cbn [orub]; [|exact I]. pose proof (ck_some _ _ Ek) as [-> _].
        destruct (Z.leb_spec (t - um m) 0); cbn [entry]; [exact I|]. split; [reflexivity|]. destruct (Z.le_gt_cases X (im m)) as [H'|H']; [specialize (Hcm H')|]; lia.
      - destruct He as (-> & He). split; [lia|]. destruct (ck (t - um m)) as [d|] eqn:Ek; cbn [orub]; [|exact I]. pose proof (ck_some _ _ Ek) as [-> _].
        destruct (Z.ltb_spec 0 (t - um m)); [|exact I]. unfold sleep_for_internal. destruct (0 <? Z.min (t - um m) POLL); cbn [entry]; (split; [reflexivity|]);
          (destruct (Z.le_gt_cases X (im m)) as [H'|H']; [specialize (Hcm H')|]; lia).
      - destruct He as (-> & He & Hd). split; [lia|]. cbn [entry]. split; [reflexivity|lia].
    }
    destruct G as [G1 G2]. destruct Hin as [->|Hin]; [exact G1|].
    cbn [honest prompt] in Hh, Hp. destruct Hh as (_ & _ & Hh). destruct Hp as [_ Hp].
    apply (IH (tell p m) (im m) G2); auto; [cbn [run] in Hrun; destruct (ask p) eqn:Ea; auto|].
    destruct p; cbn [entry] in He; try contradiction; cbn [tell quiet] in *; try exact I.
    all: unfold orub, orthrow, throws, attempt, sleep_for_internal in *.
    all: repeat match goal with |- context [if ?c then _ else _] => destruct c | |- context [ck ?c] => destruct (ck c) | |- context [wm ?z] => destruct (wm z) end; try exact I; try (exact (proj2 Hwm)).
  Qed.
End Late.

(** ** Defined behaviour *)
Definition safe_clock (t : Z) (m : moment) : Prop := fits (t - um m) /\ 0 <= im m /\ fits (im m + POLL).
Definition nubp (t : Z) (p : pc) : Prop :=
  match p with
  | UP_pred t' | UP_now t' | UP_wait t' _ | T_now _ t' | T_try _ t' _ | T_check _ t' | S_now t' | S_sleep t' _ => t' = t
  | UP_int t' d | T_int _ t' d => t' = t /\ - 2 ^ 63 <= d <= POLL
  | PredResult => True
  | Done r => r <> RUndefined
  | _ => False
  end.
Lemma defined t tr : forall p p', nubp t p -> (forall m, In m tr -> safe_clock t m) -> run p tr = Some p' -> p' <> Done RUndefined.
Proof.
  induction tr as [|m tr IH]; intros p p' Hp Hm Hrun; [injection Hrun as <-; destruct p; cbn [nubp] in Hp; try contradiction; try discriminate; congruence|].
  destruct (Hm m (or_introl eq_refl)) as (Hf1 & Hi & Hf2). pose proof Hf1 as Hd. unfold fits in Hd.
  assert (Hm' : forall x, In x tr -> safe_clock t x) by (intros; apply Hm; now right).
  assert (HP : POLL = 100000000) by reflexivity.
  cbn [run] in Hrun. assert (Hr : run (tell p m) tr = Some p') by (destruct (ask p); auto; discriminate).
  apply (IH (tell p m) p'); auto. destruct p; cbn [nubp] in Hp; try contradiction; cbn [tell].
  - destruct (pm m); cbn [nubp]; auto.
  - subst t0. rewrite (ck_fits _ Hf1). cbn [orub]. destruct (Z.leb_spec (t - um m) 0); cbn [nubp]; [exact I|]. split; [reflexivity|lia].
  - destruct Hp as [-> Hp]. rewrite ck_fits; [reflexivity|]. unfold fits in *. lia.
  - unfold orthrow, throws. destruct (wm m); cbn [nubp]; auto; discriminate.
  - cbn. discriminate.
  - subst t0. rewrite (ck_fits _ Hf1). cbn [orub nubp]. split; [reflexivity|lia].
  - destruct Hp as [-> Hp]. rewrite ck_fits; [reflexivity|]. unfold fits in *. lia.
  - unfold attempt. destruct (wm m); cbn [nubp]; auto; try discriminate; destruct mx; cbn; auto; discriminate.
  - subst t0. rewrite (ck_fits _ Hf1). cbn [orub]. destruct (Z.leb_spec (t - um m) 0); cbn [nubp]; [discriminate|]. split; [reflexivity|lia].
  - subst t0. rewrite (ck_fits _ Hf1). cbn [orub]. destruct (Z.ltb_spec 0 (t - um m)); cbn [nubp]; [|discriminate].
    unfold sleep_for_internal. destruct (0 <? Z.min (t - um m) POLL); cbn [nubp]; reflexivity.
  - exact Hp.
  - cbn. exact Hp.
Qed.

Lemma never_stable tr : never_true tr -> forall p, stable p tr.
Proof.
  intros Hn. induction tr as [|m tr IH]; intros p; [exact I|]. destruct tr as [|m' tr]; [exact I|].
  split; [intros _ E; rewrite (Hn m (or_introl eq_refl)) in E; discriminate|]. apply IH. intros x Hx. apply Hn. now right.
Qed.
