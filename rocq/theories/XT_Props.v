(** * Theorems about xtime and thread attributes *)
From Verif Require Import XT_Spec.

Lemma to_signed_id bits x : 1 <= bits -> - 2 ^ (bits - 1) <= x < 2 ^ (bits - 1) -> to_signed bits x = x.
Proof.
  intros Hb Hx. unfold to_signed. assert (E : 2 ^ bits = 2 * 2 ^ (bits - 1)) by (rewrite <- Z.pow_succ_r by lia; f_equal; lia).
  rewrite Z.mod_small; lia.
Qed.
Lemma quot_rem t : t = ticks_per_second * Z.quot t ticks_per_second + Z.rem t ticks_per_second.
Proof. apply Z.quot_rem'. Qed.
Lemma get_sec_pos t : 0 <= t -> sec (get_xtime t) = t / ticks_per_second /\ nsec (get_xtime t) = t mod ticks_per_second * 1000.
Proof. intros H. cbn. rewrite Z.quot_div_nonneg, Z.rem_mod_nonneg by (unfold ticks_per_second; lia). auto. Qed.

(** ** C142 Conversions *)
(** A time since 1970 is converted to an xtime in normal form that stands for exactly that time, and back to itself. *)
Theorem xtime_conversion_partial lbits t : 1 <= lbits -> 0 <= t -> t / ticks_per_second < 2 ^ 63 -> fits lbits (get_xtime t) ->
  normal (get_xtime t) /\ nanoseconds (get_xtime t) = 1000 * t /\ to_system_time lbits (get_xtime t) = t.
Proof.
  intros Hb Ht Hm Hf. destruct (get_sec_pos t Ht) as [Hs Hn]. unfold normal, nanoseconds, to_system_time.
  rewrite to_signed_id by (auto; exact Hf). rewrite Hs, Hn in *. unfold ticks_per_second in *.
  pose proof (Z.div_mod t 1000000). pose proof (Z.mod_pos_bound t 1000000). pose proof (Z.div_pos t 1000000).
  repeat split; try lia. rewrite Z.quot_div_nonneg by lia. replace (t mod 1000000 * 1000 + 500) with (500 + t mod 1000000 * 1000) by lia.
  rewrite Z.div_add by lia. change (500 / 1000) with 0. lia.
Qed.
Print Assumptions xtime_conversion_partial.
(** An xtime in normal form is converted to the nearest microsecond. *)
Theorem xtime_to_system_time_partial lbits x : 1 <= lbits -> normal x -> fits lbits x ->
  nanoseconds x - 500 < 1000 * to_system_time lbits x <= nanoseconds x + 500.
Proof.
  intros Hb [Hn Hs] Hf. unfold to_system_time, nanoseconds. rewrite to_signed_id by auto. unfold ticks_per_second.
  rewrite Z.quot_div_nonneg by lia. pose proof (Z.div_mod (nsec x + 500) 1000). pose proof (Z.mod_pos_bound (nsec x + 500) 1000). lia.
Qed.
Print Assumptions xtime_to_system_time_partial.
(** Any time, also before 1970: the xtime stands for exactly that time, but need not be in normal form. *)
Theorem get_xtime_exact t : nanoseconds (get_xtime t) = 1000 * t.
Proof. unfold nanoseconds. cbn [sec nsec get_xtime]. change (1000000000 / ticks_per_second) with 1000. pose proof (quot_rem t). unfold ticks_per_second in *. lia. Qed.
Print Assumptions get_xtime_exact.
(** Times before 1970 are neither in normal form nor converted back to themselves. *)
Theorem xtime_conversion_refuted : ~ (forall t, to_system_time 64 (get_xtime t) = t) /\ ~ (forall t, - 2 ^ 53 < t < 2 ^ 53 -> normal (get_xtime t)).
Proof.
  split; intros H.
  - specialize (H (-1)). vm_compute in H. discriminate.
  - destruct (H (-1)) as [[A _] _]; [lia|]. vm_compute in A. now apply A.
Qed.
Print Assumptions xtime_conversion_refuted.
(** The conversion to system_time can be early: a wait until that time ends before the xtime. *)
Theorem xtime_not_early_refuted : ~ (forall x, normal x -> fits 64 x -> nanoseconds x <= 1000 * to_system_time 64 x).
Proof.
  intros H. specialize (H (Xtime 0 400)). cut (400 <= 0); [lia|]. apply H; unfold normal, fits; cbn; lia.
Qed.
Print Assumptions xtime_not_early_refuted.
(** Where long has 32 bits, times from 2038 on are converted to times in the past. *)
Theorem xtime_long_refuted : ~ (forall t, 0 <= t < 2 ^ 53 -> to_system_time 32 (get_xtime t) = t).
Proof. intros H. specialize (H (2 ^ 31 * 1000000)). cut (to_system_time 32 (get_xtime (2 ^ 31 * 1000000)) = 2 ^ 31 * 1000000); [vm_compute; discriminate|]. apply H. lia. Qed.
Print Assumptions xtime_long_refuted.
(** 2026-11-17 *)
Example xtime_case : 0 <= 1794880800123456 /\ fits 64 (get_xtime 1794880800123456) /\ get_xtime 1794880800123456 = Xtime 1794880800 123456000.
Proof. repeat split; vm_compute; congruence. Qed.

(** ** C143 xtime_cmp *)
(** For xtimes in normal form the sign of xtime_cmp is the order of the times they stand for. *)
Theorem xtime_cmp_order a b : normal a -> normal b ->
  (xtime_cmp a b = 0 <-> nanoseconds a = nanoseconds b) /\ (xtime_cmp a b < 0 <-> nanoseconds a < nanoseconds b) /\ (0 < xtime_cmp a b <-> nanoseconds b < nanoseconds a).
Proof.
  intros [Ha _] [Hb _]. unfold xtime_cmp, nanoseconds. destruct (Z.eqb_spec (sec a) (sec b)) as [E|E].
  - rewrite to_signed_id by (change (2 ^ (32 - 1)) with 2147483648; lia). lia.
  - destruct (Z.ltb_spec (sec b) (sec a)); lia.
Qed.
Print Assumptions xtime_cmp_order.
(** It also orders what get_xtime returns, whatever the time. *)
Theorem xtime_cmp_get_xtime s t :
  (xtime_cmp (get_xtime s) (get_xtime t) = 0 <-> s = t) /\ (xtime_cmp (get_xtime s) (get_xtime t) < 0 <-> s < t) /\ (0 < xtime_cmp (get_xtime s) (get_xtime t) <-> t < s).
Proof.
  unfold xtime_cmp. cbn [sec nsec get_xtime]. change (1000000000 / ticks_per_second) with 1000.
  pose proof (quot_rem s) as Hs. pose proof (quot_rem t) as Ht.
  assert (Bs : Z.abs (Z.rem s ticks_per_second) < Z.abs ticks_per_second) by (apply Z.rem_bound_abs; discriminate).
  assert (Bt : Z.abs (Z.rem t ticks_per_second) < Z.abs ticks_per_second) by (apply Z.rem_bound_abs; discriminate).
  unfold ticks_per_second in *.
  destruct (Z.eqb_spec (Z.quot s 1000000) (Z.quot t 1000000)) as [E|E].
  - rewrite to_signed_id by (change (2 ^ (32 - 1)) with 2147483648; lia). lia.
  - assert (Z.quot s 1000000 < Z.quot t 1000000 <-> s < t).
    { split; intros H.
      - destruct (Z.lt_ge_cases s t) as [L|L]; auto. pose proof (Z.quot_le_mono t s 1000000). lia.
      - pose proof (Z.quot_le_mono s t 1000000). lia. }
    assert (s <> t) by congruence. destruct (Z.ltb_spec (Z.quot t 1000000) (Z.quot s 1000000)); lia.
Qed.
Print Assumptions xtime_cmp_get_xtime.
Example xtime_cmp_case : normal (Xtime 5 999999999) /\ normal (Xtime (- 2 ^ 40) 0) /\ xtime_cmp (Xtime (- 2 ^ 40) 0) (Xtime 5 999999999) = -1 /\ xtime_cmp (Xtime 5 999999999) (Xtime 5 0) = 999999999.
Proof. repeat split; vm_compute; congruence. Qed.

(** ** C144 The size of the stack *)
(** After set_stack_size(n) the size is the least multiple of the page size that is at least n and the system's minimum; 0 changes nothing. *)
Theorem stack_size_partial bits page mn old n : 0 <= bits -> 0 < page -> 0 <= mn -> 0 <= n -> Z.max n mn + page <= 2 ^ bits ->
  exists r, set_stack_size bits page mn old n = (r, true) /\
    (n = 0 -> r = old) /\
    (n <> 0 -> n <= r /\ mn <= r /\ (exists k, r = k * page) /\ forall k, n <= k * page -> mn <= k * page -> r <= k * page).
Proof.
  intros Hb Hp Hm Hn Hw. unfold set_stack_size. destruct (Z.eqb_spec n 0) as [E|E]; [exists old; repeat split; tauto|].
  set (m := if n <? mn then mn else n). assert (Em : m = Z.max n mn) by (unfold m; destruct (Z.ltb_spec n mn); lia).
  pose proof (Z.div_mod (m + page - 1) page). pose proof (Z.mod_pos_bound (m + page - 1) page).
  assert (W : wrap bits (m + page - 1) = m + page - 1) by (apply Z.mod_small; lia). rewrite W.
  assert (W2 : wrap bits ((m + page - 1) / page * page) = (m + page - 1) / page * page) by (apply Z.mod_small; lia). rewrite W2.
  destruct (Z.ltb_spec ((m + page - 1) / page * page) mn); [lia|].
  exists ((m + page - 1) / page * page). split; [reflexivity|]. split; [tauto|]. intros _. split; [lia|]. split; [lia|]. split; [eauto|].
  intros k K1 K2. apply Z.mul_le_mono_nonneg_r; [lia|]. cut ((m + page - 1) / page < k + 1); [lia|]. apply Z.div_lt_upper_bound; lia.
Qed.
Print Assumptions stack_size_partial.
(** Not for sizes near the largest one: the sum wraps around, the call of the system fails and the size is not set. *)
Theorem stack_size_refuted : set_stack_size 64 4096 16384 8388608 (2 ^ 64 - 1) = (8388608, false).
Proof. vm_compute. reflexivity. Qed.
Print Assumptions stack_size_refuted.
Example stack_size_case : set_stack_size 64 4096 16384 8388608 100000 = (102400, true) /\ set_stack_size 64 4096 16384 8388608 1 = (16384, true) /\ Z.max 100000 16384 + 4096 <= 2 ^ 64.
Proof. repeat split; vm_compute; congruence. Qed.
