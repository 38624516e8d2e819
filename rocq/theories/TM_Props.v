(** * Theorems about the time arithmetic (C62) *)

From Verif Require Import TM_Model TM_Spec TM_Proofs.
Set Implicit Arguments.

(** C62: nanoseconds to timespec and back is the identity on all 64-bit values, without overflow. *)
Theorem timespec_roundtrip (ns : Z) :
  int64 ns -> exists ts, ns_to_timespec ns = Some ts /\ value ts = ns /\ timespec_to_ns ts = Some ns.
Proof. intros H. destruct (roundtrip H) as (ts & H1 & H2 & H3). exists ts. auto. Qed.
Print Assumptions timespec_roundtrip.
Example timespec_roundtrip_ex : int64 (- 2 ^ 63) /\ ns_to_timespec (-1) = Some (TS 0 (-1)).
Proof. split; [unfold int64; lia|reflexivity]. Qed.

(** C62, full statement: the result is always in normal form.  It holds for values that are not negative ... *)
Theorem timespec_normalised_partial (ns : Z) (ts : timespec) :
  int64 ns -> 0 <= ns -> ns_to_timespec ns = Some ts -> normal ts.
Proof. intros H Hp E. apply (rejects H E). auto. Qed.
Print Assumptions timespec_normalised_partial.
Example timespec_normalised_ex : ns_to_timespec 1999999999 = Some (TS 1 999999999).
Proof. reflexivity. Qed.

(** ... and exactly for those and the whole seconds. *)
Theorem timespec_normalised_refuted :
  (forall ns ts, int64 ns -> ns < 0 -> ~ (1000000000 | ns) -> ns_to_timespec ns = Some ts -> ~ normal ts) /\
  exists ns ts, int64 ns /\ ns < 0 /\ ~ (1000000000 | ns) /\ ns_to_timespec ns = Some ts.
Proof.
  split.
  - intros ns ts H Hn Hd E HN. apply (rejects H E) in HN. destruct HN; [lia|contradiction].
  - exists (-1), (TS 0 (-1)). split; [unfold int64; lia|]. split; [lia|]. split; [intros [k Hk]; lia|reflexivity].
Qed.
Print Assumptions timespec_normalised_refuted.

(** C62: rounding to milliseconds never shortens a wait, and lengthens it by less than a millisecond; a duration that is not
    positive stays so. *)
Theorem milliseconds_never_short_partial (ts : timespec) (ns : Z) :
  timespec_to_ns ts = Some ns -> - 2 ^ 63 + 999999 <= ns < 2 ^ 63 - 999999 ->
  exists ms, getMs ts = Some ms /\
    (0 <= ns -> ns <= ms * 1000000 < ns + 1000000) /\ (ns < 0 -> ns - 1000000 < ms * 1000000 <= ns).
Proof.
  intros E H. destruct (Z.le_gt_cases 0 ns) as [Hc|Hc].
  - destruct (getMs_pos _ E (conj Hc (proj2 H))) as (ms & H1 & H2). exists ms. split; [exact H1|]. split; intros; lia.
  - destruct (getMs_neg _ E (conj (proj1 H) Hc)) as (ms & H1 & H2). exists ms. split; [exact H1|]. split; intros; lia.
Qed.
Print Assumptions milliseconds_never_short_partial.
Example milliseconds_ex : getMs (TS 0 1) = Some 1 /\ getMs (TS 0 (-1)) = Some (-1) /\ getMs (TS 1 0) = Some 1000.
Proof. repeat split. Qed.

(** Missing: the last 999999 values at either end overflow (undefined behaviour). *)
Theorem milliseconds_overflow_refuted (ts : timespec) (ns : Z) :
  timespec_to_ns ts = Some ns -> 2 ^ 63 - 999999 <= ns \/ ns < - 2 ^ 63 + 999999 -> getMs ts = None.
Proof. exact (@getMs_ub ts ns). Qed.
Print Assumptions milliseconds_overflow_refuted.
Example milliseconds_overflow_ex : timespec_to_ns (TS 9223372036 854775807) = Some (2 ^ 63 - 1).
Proof. reflexivity. Qed.

(** C62: comparing is comparing the numbers of nanoseconds; time point + duration and time point - time point are the
    integer operations whenever the results fit. *)
Theorem time_order (a b : timespec) (x y : bool) :
  ts_eqb a b = Some x -> ts_ltb a b = Some y -> (x = true <-> value a = value b) /\ (y = true <-> value a < value b).
Proof.
  unfold ts_eqb, ts_ltb, bind. destruct (timespec_to_ns a) eqn:Ea; [|discriminate]. destruct (timespec_to_ns b) eqn:Eb; [|discriminate].
  apply timespec_to_ns_some in Ea as [-> _]. apply timespec_to_ns_some in Eb as [-> _]. intros [= <-] [= <-].
  split; [apply Z.eqb_eq|apply Z.ltb_lt].
Qed.
Print Assumptions time_order.
Theorem time_arithmetic (a b : timespec) (x y : Z) :
  timespec_to_ns a = Some x -> timespec_to_ns b = Some y ->
  (int64 (x + y) -> exists c, ts_add a b = Some c /\ value c = value a + value b) /\
  (int64 (x - y) -> exists c, ts_sub a b = Some c /\ value c = value a - value b).
Proof.
  intros Ha Hb. pose proof (timespec_to_ns_some _ Ha) as [Ea _]. pose proof (timespec_to_ns_some _ Hb) as [Eb _]. split; intros H.
  - destruct (add_ok _ _ Ha Hb H) as (c & Hc & Hv). exists c. split; [exact Hc|]. apply timespec_to_ns_some in Hv. lia.
  - destruct (sub_ok _ _ Ha Hb H) as (c & Hc & Hv). exists c. split; [exact Hc|]. apply timespec_to_ns_some in Hv. lia.
Qed.
Print Assumptions time_arithmetic.
Example time_arithmetic_ex : ts_add (TS 5 900000000) (TS 0 200000000) = Some (TS 6 100000000) /\ ts_sub (TS 5 0) (TS 7 1) = Some (TS (-2) (-1)).
Proof. split; reflexivity. Qed.

(** C62: a Boost.DateTime duration is converted exactly when its resolution divides a nanosecond count. *)
Theorem time_duration_exact (ticks tps : Z) :
  0 < tps -> (tps | 1000000000) -> exists ts, of_time_duration ticks tps = Some ts /\ value ts = ticks * (1000000000 / tps).
Proof. intros Hp Hd. destruct (of_td_def ticks Hp Hd) as [ts E]. exists ts. split; [exact E|]. exact (of_td ticks Hp Hd E). Qed.
Print Assumptions time_duration_exact.
Example time_duration_ex : of_time_duration (-1500000) 1000000 = Some (TS (-1) (-500000000)).
Proof. reflexivity. Qed.

(** The time point getMax(), meant to be later than all others, cannot be compared with any: undefined behaviour. *)
Theorem getMax_compare_refuted (ts : timespec) : ts_ltb getMax ts = None /\ ts_eqb getMax ts = None.
Proof. split; reflexivity. Qed.
Print Assumptions getMax_compare_refuted.

(** What this means for waiting.  A condition variable wait with a deadline that has not passed, or passed after the
    clocks started, times out ... *)
Theorem wait_until_times_out_partial (t cnow mnow : Z) :
  int64 (t - cnow) -> int64 (mnow + (t - cnow)) -> 0 <= mnow + (t - cnow) -> cv_wait_until_clock t cnow mnow = Some TimesOut.
Proof.
  intros H1 H2 H3. unfold cv_wait_until_clock, bind. rewrite (ck_ok H1), (ck_ok H2), (ns_to_timespec_ok H2). f_equal. unfold do_wait_until.
  rewrite (proj2 (os_normal _)); [reflexivity|]. apply (rejects H2 (ns_to_timespec_ok H2)). auto.
Qed.
Print Assumptions wait_until_times_out_partial.
Theorem wait_until_steady_times_out_partial (t : Z) : int64 t -> 0 <= t -> cv_wait_until_steady t = Some TimesOut.
Proof.
  intros H1 H3. unfold cv_wait_until_steady, bind. rewrite (ns_to_timespec_ok H1). f_equal. unfold do_wait_until.
  rewrite (proj2 (os_normal _)); [reflexivity|]. apply (rejects H1 (ns_to_timespec_ok H1)). auto.
Qed.
Print Assumptions wait_until_steady_times_out_partial.

(** ... but with a deadline that passed before the monotonic clock started (for Linux, before the machine booted) it throws
    condition_error, unless it is a whole number of seconds before: here wait_until(system_clock time 1 hour ago) on a machine up for half an
    hour and 1 ns. *)
Theorem wait_until_times_out_refuted :
  (forall t cnow mnow, int64 (t - cnow) -> int64 (mnow + (t - cnow)) -> mnow + (t - cnow) < 0 ->
     ~ (1000000000 | mnow + (t - cnow)) -> cv_wait_until_clock t cnow mnow = Some ThrowsConditionError) /\
  cv_wait_until_clock (1700000000 * G - 3600 * G) (1700000000 * G) (1800 * G + 1) = Some ThrowsConditionError.
Proof.
  split; [|vm_compute; reflexivity].
  intros t cnow mnow H1 H2 H3 Hd. unfold cv_wait_until_clock, bind. rewrite (ck_ok H1), (ck_ok H2), (ns_to_timespec_ok H2). f_equal.
  unfold do_wait_until. destruct (os_accepts _) eqn:E; [|reflexivity].
  apply os_normal in E. apply (rejects H2 (ns_to_timespec_ok H2)) in E. destruct E; [lia|contradiction].
Qed.
Print Assumptions wait_until_times_out_refuted.

(** The variant with a predicate is not affected: it never gives the OS a deadline it rejects. *)
Theorem wait_until_pred_ok (t cnow mnow : Z) (w : wait_end) :
  0 <= mnow -> cv_wait_until_clock_pred t cnow mnow = Some (Some w) -> w = TimesOut.
Proof.
  intros Hm. unfold cv_wait_until_clock_pred, bind. destruct (ck (t - cnow)) as [d|] eqn:E; [|discriminate].
  destruct (Z.leb_spec d 0); [discriminate|]. destruct (ck (mnow + Z.min d 100000000)) as [x|] eqn:E2; [|discriminate].
  apply ck_some in E2 as [Hx ->]. rewrite (ns_to_timespec_ok Hx). intros [= <-]. unfold do_wait_until.
  rewrite (proj2 (os_normal _)); [reflexivity|]. apply (rejects Hx (ns_to_timespec_ok Hx)). lia.
Qed.
Print Assumptions wait_until_pred_ok.
Example wait_until_pred_ex : cv_wait_until_clock_pred 7 3 1000 = Some (Some TimesOut) /\ cv_wait_until_clock_pred 3 7 1000 = Some None.
Proof. split; reflexivity. Qed.

(** sleep_for: the OS is never given a value it rejects, and is asked to sleep exactly for positive durations. *)
Theorem sleep_for_ok (ns : Z) :
  int64 ns -> exists ts, ns_to_timespec ns = Some ts /\ sleep_for_internal ts = Some (if 0 <? ns then Some true else None).
Proof.
  intros H. destruct (roundtrip H) as (ts & E & Hn & _). exists ts. split; [exact E|].
  unfold sleep_for_internal, ts_ltb, bind. rewrite (ns_to_timespec_ok (ns := 0)) by (unfold int64; lia).
  rewrite Hn. change (timespec_to_ns (TS (Z.quot 0 G) (Z.rem 0 G))) with (Some 0). cbv iota beta.
  destruct (Z.ltb_spec 0 ns); [|reflexivity]. rewrite (proj2 (os_normal _)); [reflexivity|]. apply (rejects H E). lia.
Qed.
Print Assumptions sleep_for_ok.

(** platform_milliseconds: exactly that many milliseconds whenever the nanoseconds fit in 64 bits, undefined otherwise; the
    millisecond count is recovered by getMs when rounding does not overflow. *)
Theorem milliseconds_exact (ms : Z) :
  (int64 (ms * 1000000) -> exists ts, platform_milliseconds ms = Some ts /\ value ts = ms * 1000000) /\
  (~ int64 (ms * 1000000) -> platform_milliseconds ms = None) /\
  (int64 (ms * 1000000 - 999999) -> int64 (ms * 1000000 + 999999) ->
   exists ts, platform_milliseconds ms = Some ts /\ getMs ts = Some ms).
Proof.
  unfold platform_milliseconds, bind. split; [|split].
  - intros H. rewrite (ck_ok H). destruct (roundtrip H) as (ts & H1 & H2 & H3). exists ts. auto.
  - intros H. destruct (ck (ms * 1000000)) as [x|] eqn:E; [|reflexivity]. apply ck_some in E as [Hx ->]. contradiction.
  - intros Ha Hb. assert (H : int64 (ms * 1000000)) by (unfold int64 in *; lia). rewrite (ck_ok H).
    destruct (roundtrip H) as (ts & H1 & H2 & H3). exists ts. split; [exact H1|]. unfold getMs, bind. rewrite H2.
    assert (Hm : int64 ms) by (unfold int64 in *; lia).
    destruct (Z.leb_spec 0 (ms * 1000000)) as [Hp|Hp].
    + rewrite (ck_ok Hb). replace (Z.quot (ms * 1000000 + 999999) 1000000) with ms; [apply (ck_ok Hm)|].
      rewrite Z.quot_div_nonneg by lia. rewrite Z.div_add_l by lia. change (999999 / 1000000) with 0. lia.
    + rewrite (ck_ok Ha). replace (Z.quot (ms * 1000000 - 999999) 1000000) with ms; [apply (ck_ok Hm)|].
      replace (ms * 1000000 - 999999) with (- ((- ms) * 1000000 + 999999)) by lia. rewrite Z.quot_opp_l by lia.
      rewrite Z.quot_div_nonneg by lia. rewrite Z.div_add_l by lia. change (999999 / 1000000) with 0. lia.
Qed.
Print Assumptions milliseconds_exact.
Example milliseconds_exact_ex : platform_milliseconds 1500 = Some (TS 1 500000000) /\ platform_milliseconds (-1500) = Some (TS (-1) (-500000000)) /\ platform_milliseconds (2 ^ 62) = None.
Proof. repeat split; reflexivity. Qed.
