(** * Theorems: timed waiting (C87-C91) *)
From Verif Require Import TW_Model TW_Spec TW_Proofs.
Import ListNotations.

Definition sec : Z := 1000000000.
Definition at_ (i u : Z) (p : bool) (w : wout) : moment := MkM i u p w.

(** ** C87: no time-out before the time, whatever the clock does *)
(** With a predicate the result is the predicate's last value; it is false only when the time has been reached - provided the predicate does not change between two
    evaluations under one hold of the lock. *)
Theorem C87_wait_until_pred_partial : forall t tr b,
  returns (wait_until_pred t) tr (RBool b) ->
  (exists m, last_moment tr m /\ pm m = b) /\ (b = false -> stable (wait_until_pred t) tr -> reached t tr).
Proof. intros t tr b H. exact (up_result t tr (UP_pred t) b eq_refl H). Qed.
Print Assumptions C87_wait_until_pred_partial.

Theorem C87_wait_until_pred_steady_partial : forall t tr b now,
  honest now (wait_until_pred_steady t) tr -> returns (wait_until_pred_steady t) tr (RBool b) ->
  exists m, last_moment tr m /\ pm m = b /\ (b = false -> stable (wait_until_pred_steady t) tr -> t <= im m).
Proof.
  intros t tr b now Hh H. destruct (ip_result t tr (IP_pred t) b now eq_refl H Hh) as ((m & Hm & Hb) & Hr).
  exists m. split; [exact Hm|]. split; [exact Hb|]. intros E Hs. exact (ireached_last t tr _ now m Hh (Hr E Hs) Hm).
Qed.
Print Assumptions C87_wait_until_pred_steady_partial.

Theorem C87_wait_for_pred_partial : forall d tr b now,
  honest now (wait_for_pred d) tr -> returns (wait_for_pred d) tr (RBool b) ->
  (exists m, last_moment tr m /\ pm m = b) /\
  (b = false -> stable (wait_for_pred d) tr -> exists m, last_moment tr m /\ now + d <= im m).
Proof. intros d tr b now Hh H. exact (for_pred_result true false d tr b now H eq_refl Hh). Qed.
Print Assumptions C87_wait_for_pred_partial.

(** A predicate that is true when the loop tests it and false when the result is computed: false is returned before the time. *)
Theorem C87_unstable_pred_refuted : exists t tr now,
  honest now (wait_until_pred t) tr /\ returns (wait_until_pred t) tr (RBool false) /\ ~ reached t tr /\ (exists m, In m tr /\ pm m = true).
Proof.
  exists (3600 * sec), [at_ 0 0 true Woken; at_ 0 0 false Woken], 0.
  split; [repeat split; vm_compute; discriminate|]. split; [reflexivity|].
  split; [intros (m & [<-|[<-|[]]] & H); revert H; vm_compute; congruence|]. exists (at_ 0 0 true Woken). split; [now left|reflexivity].
Qed.
Print Assumptions C87_unstable_pred_refuted.

Example C87_stable_case : let tr := [at_ 0 0 false Woken; at_ 1 0 false Woken; at_ 2 0 false Woken; at_ 100000002 (7 * sec) false TimedOut; at_ 100000003 (7 * sec) false Woken; at_ 100000003 (7 * sec) false Woken; at_ 100000003 (7 * sec) false Woken] in
  honest 0 (wait_until_pred (5 * sec)) tr /\ stable (wait_until_pred (5 * sec)) tr /\ returns (wait_until_pred (5 * sec)) tr (RBool false).
Proof. cbv zeta. split; [repeat split; try (vm_compute; congruence); intros _; vm_compute; auto; discriminate|]. split; [|reflexivity]. repeat split; intros; try discriminate; auto. Qed.

(** Without a predicate: the status says timeout exactly when the clock read at the end has reached the time. *)
Theorem C87_wait_until : forall t tr timeout,
  (returns (wait_until t) tr (RStatus timeout) -> exists m, last_moment tr m /\ (timeout = true <-> t <= um m)) /\
  (returns (timed_wait_abs t) tr (RBool (negb timeout)) -> exists m, last_moment tr m /\ (timeout = true <-> t <= um m)).
Proof.
  intros t tr b. split; intros H; destruct (u_result _ _ _ _ H) as [E|[E|[E|(m & Hm & E)]]]; try discriminate; exists m; (split; [exact Hm|]); cbn in E.
  - injection E as ->. apply Z.leb_le.
  - injection E as E. assert (b = (t <=? um m)) as -> by (destruct b, (t <=? um m); cbn in E; congruence). apply Z.leb_le.
Qed.
Print Assumptions C87_wait_until.

Theorem C87_wait_for : forall d tr timeout now,
  (honest now (wait_for d) tr -> returns (wait_for d) tr (RStatus timeout) ->
   exists m, last_moment tr m /\ (timeout = true -> now + d <= im m) /\ (timeout = false -> wm m = Woken)) /\
  (honest now (wait_until_steady d) tr -> returns (wait_until_steady d) tr (RStatus timeout) ->
   exists m, last_moment tr m /\ (timeout = true -> d <= im m) /\ (timeout = false -> wm m = Woken)).
Proof.
  intros d tr b now. split; intros Hh H.
  - destruct (for_result _ _ _ _ _ H Hh) as [E|[[E _]|[E|(m & Hm & b' & E & H1 & H2)]]]; try discriminate.
    cbn in E. injection E as ->. eauto.
  - destruct (i_result _ _ _ _ _ H Hh) as [E|[[E _]|(m & Hm & b' & E & H1 & H2)]]; try discriminate.
    cbn in E. injection E as ->. eauto.
Qed.
Print Assumptions C87_wait_for.

Example C87_wait_case : returns (wait_until (5 * sec)) [at_ 0 0 false Woken; at_ 0 0 false Woken; at_ (2 * sec) (9 * sec) false Woken; at_ (2 * sec) (9 * sec) false Woken] (RStatus true) /\
  honest 0 (wait_for (5 * sec)) [at_ 1 0 false Woken; at_ (5 * sec + 1) 0 false TimedOut] /\ returns (wait_for (5 * sec)) [at_ 1 0 false Woken; at_ (5 * sec + 1) 0 false TimedOut] (RStatus true).
Proof. split; [reflexivity|]. split; [|reflexivity]. repeat split; try (vm_compute; congruence); discriminate. Qed.

(** try_lock_until, timed_lock, try_join_until, timed_join: at least one attempt is made; true means that the last one succeeded, false that the time has come. *)
Theorem C87_try_until : forall t tr b p, (p = try_lock_until t \/ p = try_join_until t) ->
  returns p tr (RBool b) ->
  (1 <= attempts p tr)%nat /\ exists m, last_moment tr m /\ (b = true -> wm m = Woken) /\ (b = false -> t <= um m).
Proof.
  intros t tr b p Hp H. assert (exists x, ta x t p) as [x Hx] by (destruct Hp as [-> | ->]; eexists; split; reflexivity).
  destruct (ta_result x t tr p (RBool b) Hx H) as [[_ [E|E]]|[E|((m & Hm & Hb) & Hn)]]; try discriminate.
  split; [destruct Hp as [-> | ->]; exact Hn|]. exists m. split; [exact Hm|]. destruct Hb as [[E H1]|[E H1]]; injection E as ->; split; intros; try discriminate; auto.
Qed.
Print Assumptions C87_try_until.

Theorem C87_try_for : forall d tr b p now,
  ((p = try_lock_for d \/ p = try_join_for d) -> honest now p tr -> returns p tr (RBool b) ->
   exists m, last_moment tr m /\ (b = true -> wm m = Woken) /\ (b = false -> now + d <= im m)) /\
  ((p = try_lock_until_steady d \/ p = try_join_until_steady d) -> honest now p tr -> returns p tr (RBool b) ->
   exists m, last_moment tr m /\ (b = true -> wm m = Woken) /\ (b = false -> d <= im m)).
Proof.
  intros d tr b p now. split; intros Hp Hh H.
  - destruct Hp as [-> | ->]; (destruct (try_for_result _ d tr (RBool b) now H Hh) as [[_ [E|E]]|[E|(m & Hm & Hb)]]; try discriminate;
      exists m; split; [exact Hm|]; destruct Hb as [[E H1]|[E H1]]; injection E as ->; split; intros; try discriminate; auto).
  - destruct Hp as [-> | ->]; (destruct (ti_result _ d tr (RBool b) now H Hh) as [[_ [E|[E _]]]|(m & Hm & Hb)]; try discriminate;
      exists m; split; [exact Hm|]; destruct Hb as [[E H1]|[E H1]]; injection E as ->; split; intros; try discriminate; auto; now apply H1).
Qed.
Print Assumptions C87_try_for.

Example C87_try_case : returns (try_lock_until 5) [at_ 0 9 false Woken; at_ 0 0 false Woken; at_ 0 0 false TimedOut; at_ 0 9 false Woken] (RBool false)
  /\ returns (try_join_until 5) [at_ 0 9 false Woken; at_ 0 0 false Woken; at_ 0 0 false Woken] (RBool true)
  /\ honest 0 (try_lock_for 5) [at_ 0 0 false Woken; at_ 7 0 false TimedOut] /\ returns (try_lock_for 5) [at_ 0 0 false Woken; at_ 7 0 false TimedOut] (RBool false).
Proof. split; [reflexivity|]. split; [reflexivity|]. split; [|reflexivity]. repeat split; try (vm_compute; congruence); discriminate. Qed.

(** ** C88: a clock that is set forward is noticed soon *)
(** From the internal time [X] on the clock shows [t] or more: nothing of the call happens later than 100 ms and five latencies after [X], if it starts before. *)
Theorem C88_polled : forall t X lat p tr now, polled t p -> 0 <= lat -> now <= X ->
  run p tr <> None -> honest now p tr -> prompt lat now p tr -> (forall m, In m tr -> X <= im m -> t <= um m) -> quiet p tr ->
  forall m, In m tr -> im m <= X + 100000000 + 5 * lat.
Proof.
  intros t X lat p tr now Hp Hlat Hn Hr Hh Hpr Hc Hq m Hin. change 100000000 with POLL. assert (0 < POLL) by (unfold POLL; lia).
  apply (late_bound t X lat Hlat tr p now); auto; destruct Hp; cbn [entry wait_until_pred timed_wait_abs_pred try_lock_until try_join_until sleep_until nip_sleep_until];
    try (split; [reflexivity|lia]); try exact I; exact Hq.
Qed.
Print Assumptions C88_polled.

(** Without a predicate the wait lasts as long as the time was away when the call started. *)
Theorem C88_no_predicate_refuted : exists t X tr m p, (p = wait_until t \/ p = timed_wait_abs t) /\
  run p tr <> None /\ honest 0 p tr /\ prompt 0 0 p tr /\ (forall m, In m tr -> X <= im m -> t <= um m) /\ quiet p tr /\
  In m tr /\ X + 1000 * sec < im m.
Proof.
  exists (3600 * sec), sec, [at_ 0 0 false Woken; at_ 0 0 false Woken; at_ (3600 * sec) (7200 * sec) false TimedOut; at_ (3600 * sec) (7200 * sec) false Woken], (at_ (3600 * sec) (7200 * sec) false Woken), (wait_until (3600 * sec)).
  split; [now left|]. split; [discriminate|]. split; [repeat split; try (vm_compute; congruence); intros _; vm_compute; auto; discriminate|].
  split; [repeat split; vm_compute; congruence|]. split; [intros m [<-|[<-|[<-|[<-|[]]]]]; vm_compute; congruence|].
  split; [repeat split; vm_compute; congruence|]. split; [cbn; auto|reflexivity].
Qed.
Print Assumptions C88_no_predicate_refuted.

Example C88_case : let tr := [at_ 0 0 false Woken; at_ 1 0 false Woken; at_ 2 0 false Woken; at_ 100000003 (9 * sec) false TimedOut; at_ 100000004 (9 * sec) false Woken] in
  polled (5 * sec) (try_lock_until (5 * sec)) /\ returns (try_lock_until (5 * sec)) [at_ 0 0 false Woken; at_ 1 0 false Woken; at_ 100000003 0 false TimedOut; at_ 100000004 (9 * sec) false Woken] (RBool false)
  /\ run (wait_until_pred (5 * sec)) tr <> None /\ honest 0 (wait_until_pred (5 * sec)) tr /\ prompt 3 0 (wait_until_pred (5 * sec)) tr /\ quiet (wait_until_pred (5 * sec)) tr
  /\ (forall m, In m tr -> 3 <= im m -> 5 * sec <= um m).
Proof.
  cbv zeta. split; [constructor|]. split; [reflexivity|]. split; [vm_compute; discriminate|]. split; [repeat split; try (vm_compute; congruence); discriminate|].
  split; [repeat split; vm_compute; congruence|]. split; [repeat split; vm_compute; congruence|].
  intros m [<-|[<-|[<-|[<-|[<-|[]]]]]]; vm_compute; congruence.
Qed.

(** ** C89: sleeping threads sleep long enough *)
Theorem C89_sleep_until : forall t tr,
  ((forall b, returns (sleep_until t) tr (RBool b) -> never_true tr -> reached t tr) /\
   (forall r, returns (nip_sleep_until t) tr r -> r <> RUndefined -> exists m, last_moment tr m /\ t <= um m)).
Proof.
  intros t tr. split.
  - intros b H Hn. destruct (up_result t tr (UP_pred t) b eq_refl H) as ((m & Hm & Hb) & Hr). apply Hr.
    + rewrite <- Hb. apply Hn, last_In, Hm.
    + apply never_stable, Hn.
  - intros r H Hu. destruct (sl_result t tr (S_now t) r eq_refl H) as [E|[_ E]]; [contradiction|exact E].
Qed.
Print Assumptions C89_sleep_until.

Theorem C89_sleep_for : forall d tr b now,
  (honest now (sleep_for d) tr -> returns (sleep_for d) tr (RBool b) -> never_true tr -> exists m, last_moment tr m /\ now + d <= im m) /\
  (honest now (sleep_until_steady d) tr -> returns (sleep_until_steady d) tr (RBool b) -> never_true tr -> exists m, last_moment tr m /\ d <= im m).
Proof.
  intros d tr b now. split; intros Hh H Hn.
  - destruct (for_pred_result true false d tr b now H eq_refl Hh) as ((m & Hm & Hb) & Hr). apply Hr; [|apply never_stable, Hn]. rewrite <- Hb. apply Hn, last_In, Hm.
  - destruct (C87_wait_until_pred_steady_partial d tr b now Hh H) as (m & Hm & Hb & Hr). exists m. split; [exact Hm|].
    apply Hr; [|apply never_stable, Hn]. rewrite <- Hb. apply Hn, last_In, Hm.
Qed.
Print Assumptions C89_sleep_for.

(** The sleeps that are no interruption points: a signal handler that runs ends them. *)
Theorem C89_nip_sleep_for_refuted : forall d, 0 < d -> exists tr, honest 0 (nip_sleep_for d) tr /\ returns (nip_sleep_for d) tr RVoid /\ forall m, In m tr -> im m = 0.
Proof.
  intros d Hd. exists [at_ 0 0 false Woken]. unfold nip_sleep_for, sleep_for_internal. rewrite (proj2 (Z.ltb_lt 0 d) Hd).
  split; [|split; [reflexivity|intros m [<-|[]]; reflexivity]]. cbn. repeat split; auto; try lia; discriminate.
Qed.
Print Assumptions C89_nip_sleep_for_refuted.
Theorem C89_nip_sleep_for_partial : forall d tr r now,
  honest now (nip_sleep_for d) tr -> returns (nip_sleep_for d) tr r -> no_signal tr ->
  r = RVoid /\ (0 < d -> exists m, last_moment tr m /\ now + d <= im m).
Proof. intros d tr r now Hh H Hn. exact (sf_result d tr r now H Hh Hn). Qed.
Print Assumptions C89_nip_sleep_for_partial.
Theorem C89_nip_sleep_until_steady_refuted : forall t, 0 < t <= 2 ^ 63 - 1 -> exists tr, honest 0 (nip_sleep_until_steady t) tr /\ returns (nip_sleep_until_steady t) tr RVoid /\ forall m, In m tr -> im m = 0.
Proof.
  intros t Ht. assert (Hk : ck (t - 0) = Some t) by (rewrite Z.sub_0_r; apply ck_fits; unfold fits; lia).
  exists [at_ 0 0 false Woken; at_ 0 0 false Woken]. unfold nip_sleep_until_steady.
  split; [|split; [|intros m [<-|[<-|[]]]; reflexivity]].
  - cbn [honest ask tell at_ im um wm]. rewrite Hk. cbn [orub]. unfold sleep_for_internal. rewrite (proj2 (Z.ltb_lt 0 t)) by lia.
    cbn. repeat split; auto; try lia; discriminate.
  - unfold returns. cbn [run ask tell at_ im um wm]. rewrite Hk. cbn [orub]. unfold sleep_for_internal. rewrite (proj2 (Z.ltb_lt 0 t)) by lia. reflexivity.
Qed.
Print Assumptions C89_nip_sleep_until_steady_refuted.
Theorem C89_nip_sleep_until_steady_partial : forall t tr r now,
  honest now (nip_sleep_until_steady t) tr -> returns (nip_sleep_until_steady t) tr r -> r <> RUndefined -> no_signal (tl tr) ->
  r = RVoid /\ exists m, last_moment tr m /\ t <= im m.
Proof.
  intros t tr r now Hh H Hu Hn. destruct tr as [|m tr]; [discriminate|]. unfold returns, nip_sleep_until_steady in H. cbn [run ask tell] in H. cbn [honest ask tell nip_sleep_until_steady] in Hh.
  destruct Hh as (_ & _ & Hh). destruct (ck (t - im m)) as [d|] eqn:Ek; cbn [orub] in *; [|apply run_done in H as [_ <-]; congruence].
  pose proof (ck_some _ _ Ek) as [-> _]. cbn [tl] in Hn.
  destruct (sf_result (t - im m) tr r (im m) H Hh Hn) as [Hr Hd]. split; [exact Hr|].
  destruct (Z.ltb_spec 0 (t - im m)) as [Hlt|Hge].
  - destruct (Hd Hlt) as (m' & Hm & Hi). exists m'. split; [apply last_cons, Hm|lia].
  - unfold sleep_for_internal in H. rewrite (proj2 (Z.ltb_ge 0 _) Hge) in H. apply run_done in H as [-> _]. exists m. split; [apply last_one|lia].
Qed.
Print Assumptions C89_nip_sleep_until_steady_partial.

Example C89_case : let tr := [at_ 0 0 false Woken; at_ 5 0 false TimedOut; at_ 5 9 false Woken] in
  returns (nip_sleep_until 5) tr RVoid /\ honest 0 (nip_sleep_until 5) tr /\
  returns (sleep_for 5) [at_ 0 0 false Woken; at_ 0 0 false Woken; at_ 6 0 false TimedOut; at_ 6 0 false Woken] (RBool false) /\
  honest 0 (nip_sleep_for 5) [at_ 5 0 false TimedOut] /\ no_signal [at_ 5 0 false TimedOut] /\ returns (nip_sleep_for 5) [at_ 5 0 false TimedOut] RVoid.
Proof.
  cbv zeta. split; [reflexivity|]. split; [repeat split; try (vm_compute; congruence); try (vm_compute; intros; lia); auto|]. split; [reflexivity|].
  split; [repeat split; try (vm_compute; congruence); auto|]. split; [intros m [<-|[]]; discriminate|reflexivity].
Qed.

(** ** C90: timed_wait with a duration *)
(** true means woken, false that the duration has elapsed - for durations that are numbers or positive infinity *)
Theorem C90_timed_wait_rel_partial : forall r tr b now, (match r with NegInf | NotADateTime => False | _ => True end) ->
  honest now (timed_wait_rel r) tr -> returns (timed_wait_rel r) tr (RBool b) ->
  exists m, last_moment tr m /\ (b = true -> wm m = Woken) /\ (b = false -> exists d, r = Finite d /\ now + d <= im m).
Proof.
  intros r tr b now Hr Hh H. destruct r as [| | |d]; try contradiction.
  - destruct tr as [|m tr]; [discriminate|]. unfold returns in H. cbn [run ask tell timed_wait_rel] in H. cbn [honest ask tell timed_wait_rel] in Hh. destruct Hh as (_ & Hw & _).
    unfold orthrow, throws in H. destruct Hw as [Hw|Hw]; rewrite Hw in H; apply run_done in H as [-> E]; [|discriminate]. injection E as <-.
    exists m. split; [apply last_one|]. split; [auto|discriminate].
  - cbn in Hh, H. destruct (for_result _ _ _ _ _ H Hh) as [E|[[E _]|[E|(m & Hm & b' & E & H1 & H2)]]]; try discriminate.
    cbn in E. injection E as ->. exists m. split; [exact Hm|]. split; intros E; destruct b'; try discriminate; auto. exists d. auto.
Qed.
Print Assumptions C90_timed_wait_rel_partial.
(** Negative infinity and not_a_date_time: the call says at once that it was woken. *)
Theorem C90_special_durations_refuted : returns (timed_wait_rel NegInf) [] (RBool true) /\ returns (timed_wait_rel NotADateTime) [] (RBool true).
Proof. split; reflexivity. Qed.
Print Assumptions C90_special_durations_refuted.
Theorem C90_timed_wait_rel_pred : forall r tr b now, honest now (timed_wait_rel_pred r) tr -> returns (timed_wait_rel_pred r) tr (RBool b) ->
  (exists m, last_moment tr m /\ pm m = b) /\
  (b = false -> stable (timed_wait_rel_pred r) tr -> match r with PosInf => False | Finite d => exists m, last_moment tr m /\ now + d <= im m | _ => True end).
Proof.
  intros r tr b now Hh H. destruct r as [| | |d]; cbn [timed_wait_rel_pred] in *.
  - assert (G : forall tr p, (p = ForeverPred_pred \/ p = ForeverPred_wait) -> run p tr = Some (Done (RBool b)) -> exists m, last_moment tr m /\ pm m = true /\ b = true).
    { clear. induction tr as [|m tr IH]; intros p Hp H; [destruct Hp; subst; discriminate|]. destruct Hp as [-> | ->]; cbn [run ask tell] in H.
      - destruct (pm m) eqn:Em; [apply run_done in H as [-> [= <-]]; exists m; split; [apply last_one|auto]|].
        destruct (IH _ (or_intror eq_refl) H) as (m' & Hm & E). exists m'. split; [apply last_cons, Hm|exact E].
      - unfold orthrow, throws in H. destruct (wm m); try (apply run_done in H as [_ Hx]; discriminate);
          (destruct (IH _ (or_introl eq_refl) H) as (m' & Hm & E); exists m'; split; [apply last_cons, Hm|exact E]). }
    destruct (G tr _ (or_introl eq_refl) H) as (m & Hm & E1 & ->). split; [exists m; auto|discriminate].
  - apply pred_result in H as (m & -> & E). split; [exists m; split; [apply last_one|exact E]|auto].
  - apply pred_result in H as (m & -> & E). split; [exists m; split; [apply last_one|exact E]|auto].
  - exact (for_pred_result true true d tr b now H eq_refl Hh).
Qed.
Print Assumptions C90_timed_wait_rel_pred.
Example C90_case : honest 0 (timed_wait_rel (Finite 5)) [at_ 0 0 false Woken; at_ 9 0 false TimedOut] /\ returns (timed_wait_rel (Finite 5)) [at_ 0 0 false Woken; at_ 9 0 false TimedOut] (RBool false)
  /\ honest 0 (timed_wait_rel PosInf) [at_ 3 0 false Woken] /\ returns (timed_wait_rel PosInf) [at_ 3 0 false Woken] (RBool true)
  /\ returns (timed_wait_rel_pred (Finite 5)) [at_ 0 0 false Woken; at_ 0 0 false Woken; at_ 9 0 false TimedOut; at_ 9 0 true Woken] (RBool true).
Proof.
  split; [repeat split; try (vm_compute; congruence); discriminate|]. split; [reflexivity|].
  split; [split; [vm_compute; congruence|]; split; [left; reflexivity|exact I]|]. split; reflexivity.
Qed.

(** ** C91: times that are very early or very late *)
(** A mutex: a deadline before the start of the internal clock is rejected by the operating system and the call goes on trying for ever; it never returns false. *)
Theorem C91_try_lock_past_refuted : forall ts, os_rejects ts = true ->
  (forall tr r now, honest now (try_lock_until_steady ts) tr -> returns (try_lock_until_steady ts) tr r -> r = RBool true) /\
  (forall n now, exists tr, length tr = n /\ honest now (try_lock_until_steady ts) tr /\ run (try_lock_until_steady ts) tr = Some (try_lock_until_steady ts)).
Proof.
  intros ts Hj. split.
  - intros tr r now Hh H. destruct (ti_result _ _ _ _ _ H Hh) as [[E _]|(m & _ & [[E _]|(_ & _ & E)])]; [discriminate|exact E|congruence].
  - intros n now. exists (repeat (at_ now 0 false Rejected) n). split; [apply repeat_length|]. split.
    + induction n as [|n IH]; [exact I|]. cbn. split; [lia|]. split; [split; [discriminate|auto]|]. exact IH.
    + induction n as [|n IH]; [reflexivity|]. exact IH.
Qed.
Print Assumptions C91_try_lock_past_refuted.
(** Such times occur: any time further in the past than the machine has been running. *)
Theorem C91_try_lock_until_epoch_refuted : forall n, exists tr,
  length tr = S (S n) /\ honest (100 * sec) (try_lock_until 0) tr /\ (forall m, In m tr -> um m = 1700000000 * sec + 1) /\
  run (try_lock_until 0) tr = Some (T_try true 0 (100 * sec - (1700000000 * sec + 1))).
Proof.
  intros n. set (M := at_ (100 * sec) (1700000000 * sec + 1) false Rejected). exists (M :: M :: repeat M n).
  assert (E1 : tell (try_lock_until 0) M = T_int true 0 (- (1700000000 * sec + 1))) by (vm_compute; reflexivity).
  assert (E2 : tell (T_int true 0 (- (1700000000 * sec + 1))) M = T_try true 0 (100 * sec - (1700000000 * sec + 1))) by (vm_compute; reflexivity).
  assert (Hj : os_rejects (100 * sec - (1700000000 * sec + 1)) = true) by (vm_compute; reflexivity).
  generalize dependent (100 * sec - (1700000000 * sec + 1)). intros ts E2 Hj.
  split; [cbn; now rewrite repeat_length|]. split; [|split].
  - cbn [honest]. rewrite E1, E2. split; [apply Z.le_refl|]. split; [exact I|]. split; [apply Z.le_refl|]. split; [exact I|].
    induction n as [|n IH]; [exact I|]. cbn [repeat honest ask]. split; [apply Z.le_refl|]. split; [split; [discriminate|auto]|]. exact IH.
  - intros m [<-|[<-|Hm]]; auto. apply repeat_spec in Hm. now subst m.
  - cbn [run ask try_lock_until]. change (T_now true 0) with (try_lock_until 0). rewrite E1. cbn [ask]. rewrite E2. induction n as [|n IH]; [reflexivity|exact IH].
Qed.
Print Assumptions C91_try_lock_until_epoch_refuted.
(** Waits on condition variables and joins end with an exception in the same case. *)
Theorem C91_wait_past_throws_refuted : exists tr1 tr2 tr3,
  honest (100 * sec) (wait_until 0) tr1 /\ returns (wait_until 0) tr1 RConditionError /\
  honest (100 * sec) (wait_for (- 100 * sec - 1)) tr2 /\ returns (wait_for (- 100 * sec - 1)) tr2 RConditionError /\
  honest (100 * sec) (try_join_until 0) tr3 /\ returns (try_join_until 0) tr3 RConditionError.
Proof.
  set (M := at_ (100 * sec) (1700000000 * sec + 1) false Rejected). exists [M; M; M], [M; M], [M; M; M].
  repeat split; try (vm_compute; congruence); try (vm_compute; reflexivity); discriminate.
Qed.
Print Assumptions C91_wait_past_throws_refuted.
(** The largest duration and the largest time overflow the 64-bit arithmetic. *)
Theorem C91_huge_undefined_refuted : forall i u, 0 < i -> u < 0 ->
  returns (wait_for (2 ^ 63 - 1)) [at_ i u false Woken] RUndefined /\ returns (try_lock_for (2 ^ 63 - 1)) [at_ i u false Woken] RUndefined /\
  returns (sleep_for (2 ^ 63 - 1)) [at_ i u false Woken] RUndefined /\ returns (wait_until (2 ^ 63 - 1)) [at_ i u false Woken] RUndefined.
Proof.
  intros i u Hi Hu. assert (Hk : forall z, 2 ^ 63 - 1 < z -> ck z = None).
  { intros z Hz. destruct (ck z) as [d|] eqn:E; [|reflexivity]. pose proof (ck_some _ _ E) as [_ H]. unfold fits in H. lia. }
  unfold returns, wait_for, try_lock_for, sleep_for, wait_until. cbn [run ask tell at_ im um]. rewrite !Hk by lia. repeat split.
Qed.
Print Assumptions C91_huge_undefined_refuted.
(** Otherwise all is well: calls that poll never do undefined arithmetic and, with deadlines after the start of the clock, nothing is rejected. *)
Theorem C91_polled_defined_partial : forall t p tr r, polled t p -> (forall m, In m tr -> fits (t - um m) /\ 0 <= im m /\ fits (im m + POLL)) -> returns p tr r -> r <> RUndefined.
Proof.
  intros t p tr r Hp Hm H E. subst r. refine (defined t tr p (Done RUndefined) _ Hm H eq_refl). destruct Hp; reflexivity.
Qed.
Print Assumptions C91_polled_defined_partial.
Theorem C91_wait_until_pred_no_error_partial : forall t tr r now p, (p = wait_until_pred t \/ p = timed_wait_abs_pred t \/ p = sleep_until t) ->
  0 <= now -> honest now p tr -> returns p tr r -> r <> RConditionError.
Proof.
  intros t tr r now p Hp Hn Hh H E. subst r. assert (Ho : forall ts, 0 <= ts -> os_rejects ts = false) by (intros ts Hts; unfold os_rejects; rewrite (proj2 (Z.ltb_ge ts 0) Hts); reflexivity).
  assert (G : forall tr p now, 0 <= now -> match p with UP_pred _ | UP_now _ | PredResult => True | UP_int _ d => 0 <= d | UP_wait _ ts => 0 <= ts | _ => False end ->
    honest now p tr -> run p tr = Some (Done RConditionError) -> False).
  { clear -Ho. induction tr as [|m tr IH]; intros p now Hn Hp Hh H; [destruct p; try contradiction; discriminate|].
    cbn [honest] in Hh. destruct Hh as (Hle & Hq & Hh). assert (Hi : 0 <= im m) by lia.
    destruct p; try contradiction; cbn [run ask tell] in *.
    - destruct (pm m); eapply (IH _ (im m)); eauto; exact I.
    - destruct (ck (t - um m)) as [d|] eqn:Ek; cbn [orub] in *; [|apply run_done in H as [_ Hx]; discriminate].
      destruct (Z.leb_spec d 0); eapply (IH _ (im m)); eauto; cbn; unfold POLL; lia || exact I.
    - destruct (ck (im m + d)) as [ts|] eqn:Ek; cbn [orub] in *; [|apply run_done in H as [_ Hx]; discriminate].
      pose proof (ck_some _ _ Ek) as [-> _]. eapply (IH _ (im m)); eauto. cbn. lia.
    - destruct Hq as [_ Hj]. rewrite (Ho ts Hp) in Hj. unfold orthrow, throws in *. destruct (wm m).
      + eapply (IH _ (im m)); eauto; exact I.
      + eapply (IH _ (im m)); eauto; exact I.
      + apply run_done in H as [_ Hx]. discriminate.
      + specialize (Hj eq_refl). discriminate.
    - apply run_done in H as [_ Hx]. discriminate. }
  eapply (G tr p now Hn); eauto. destruct Hp as [-> |[-> | ->]]; exact I.
Qed.
Print Assumptions C91_wait_until_pred_no_error_partial.
Example C91_case : polled 5 (try_lock_until 5) /\ (forall m, In m [at_ 0 9 false Woken; at_ 0 0 false Woken; at_ 0 0 false TimedOut; at_ 0 9 false Woken] -> fits (5 - um m) /\ 0 <= im m /\ fits (im m + POLL))
  /\ os_rejects (-1) = true /\ os_rejects (- sec) = false.
Proof.
  split; [constructor|]. split; [|split; reflexivity]. intros m Hm. assert (im m = 0 /\ (um m = 9 \/ um m = 0)) as [-> Hu] by (destruct Hm as [<-|[<-|[<-|[<-|[]]]]]; cbn; auto).
  unfold fits, POLL. destruct Hu as [-> | ->]; repeat split; lia.
Qed.
