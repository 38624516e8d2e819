From Verif Require Export TM_Spec.
Set Implicit Arguments.

Lemma ck_ok z : int64 z -> ck z = Some z.
Proof.
  unfold int64, ck, in64, MIN64, MAX64. intros H.
  destruct (Z.leb_spec (- 2 ^ 63) z); [|lia]. destruct (Z.leb_spec z (2 ^ 63 - 1)); [reflexivity|lia].
Qed.
Lemma ck_some z r : ck z = Some r -> int64 z /\ r = z.
Proof.
  unfold int64, ck, in64, MIN64, MAX64. destruct (Z.leb_spec (- 2 ^ 63) z); [|discriminate].
  destruct (Z.leb_spec z (2 ^ 63 - 1)); [|discriminate]. intros [= <-]. split; [lia|reflexivity].
Qed.
Lemma ck_none z : ~ int64 z -> ck z = None.
Proof. intros H. destruct (ck z) eqn:E; [|reflexivity]. apply ck_some in E. tauto. Qed.

Lemma rem_bound_neg a b : 0 < b -> a <= 0 -> - b < Z.rem a b <= 0.
Proof.
  intros Hb Ha. pose proof (Z.rem_bound_pos (- a) b ltac:(lia) Hb) as H. rewrite Z.rem_opp_l in H by lia. lia.
Qed.

Lemma quot_rem_G ns : ns = Z.quot ns G * G + Z.rem ns G.
Proof. pose proof (Z.quot_rem ns G). unfold G in *. lia. Qed.
Lemma rem_G_pos ns : 0 <= ns -> 0 <= Z.rem ns G < G.
Proof. intros H. apply Z.rem_bound_pos; unfold G; lia. Qed.
Lemma rem_G_neg ns : ns <= 0 -> - G < Z.rem ns G <= 0.
Proof. intros H. apply rem_bound_neg; unfold G; lia. Qed.
Lemma quot_G_between ns : (0 <= ns -> 0 <= Z.quot ns G * G <= ns) /\ (ns <= 0 -> ns <= Z.quot ns G * G <= 0).
Proof.
  split; intros H.
  - pose proof (quot_rem_G ns). pose proof (rem_G_pos H). pose proof (Z.quot_pos ns G H). unfold G in *. lia.
  - pose proof (quot_rem_G ns). pose proof (rem_G_neg H). unfold G in *. lia.
Qed.

Lemma ns_to_timespec_ok ns : int64 ns -> ns_to_timespec ns = Some (TS (Z.quot ns G) (Z.rem ns G)).
Proof.
  intros H. unfold ns_to_timespec, bind. pose proof (quot_rem_G ns). destruct (quot_G_between ns) as [Hp Hn].
  assert (Hm : int64 (Z.quot ns G * G)) by (unfold int64 in *; destruct (Z.le_ge_cases 0 ns); [specialize (Hp H1)|specialize (Hn H1)]; lia).
  assert (Hs : int64 (Z.quot ns G)) by (unfold int64, G in *; lia).
  rewrite (ck_ok Hs), (ck_ok Hm). replace (ns - Z.quot ns G * G) with (Z.rem ns G) by lia.
  rewrite ck_ok; [reflexivity|]. unfold int64 in *. destruct (Z.le_ge_cases 0 ns) as [Hc|Hc].
  - pose proof (rem_G_pos Hc). unfold G in *. lia.
  - pose proof (rem_G_neg Hc). unfold G in *. lia.
Qed.

Lemma timespec_to_ns_some ts ns : timespec_to_ns ts = Some ns -> ns = value ts /\ int64 ns.
Proof.
  unfold timespec_to_ns, bind, value. destruct (ck (tv_sec ts * G)) eqn:E; [|discriminate]. apply ck_some in E as [_ ->].
  intros H. apply ck_some in H as [H1 ->]. unfold G in *. auto.
Qed.

Lemma timespec_to_ns_ok ts : int64 (tv_sec ts * 1000000000) -> int64 (value ts) -> timespec_to_ns ts = Some (value ts).
Proof. intros H1 H2. unfold timespec_to_ns, bind, value in *. unfold G. rewrite (ck_ok H1), (ck_ok H2). reflexivity. Qed.

Lemma roundtrip ns : int64 ns -> exists ts, ns_to_timespec ns = Some ts /\ timespec_to_ns ts = Some ns /\ value ts = ns.
Proof.
  intros H. eexists. split; [exact (ns_to_timespec_ok H)|]. pose proof (quot_rem_G ns). destruct (quot_G_between ns) as [Hp Hn].
  assert (value (TS (Z.quot ns G) (Z.rem ns G)) = ns) as Hv by (unfold value; simpl; unfold G in *; lia).
  split; [|exact Hv]. rewrite <- Hv at 3. apply timespec_to_ns_ok; [|now rewrite Hv]. simpl. unfold int64, G in *.
  destruct (Z.le_ge_cases 0 ns) as [Hc|Hc]; [specialize (Hp Hc)|specialize (Hn Hc)]; lia.
Qed.

Lemma ns_to_timespec_some ns ts : int64 ns -> ns_to_timespec ns = Some ts -> ts = TS (Z.quot ns G) (Z.rem ns G).
Proof. intros H E. rewrite (ns_to_timespec_ok H) in E. congruence. Qed.

Lemma rejects ns ts : int64 ns -> ns_to_timespec ns = Some ts ->
  (normal ts <-> 0 <= ns \/ (1000000000 | ns)).
Proof.
  intros H E. rewrite (ns_to_timespec_some H E). unfold normal. simpl. split.
  - intros Hn. destruct (Z.le_gt_cases 0 ns) as [Hc|Hc]; [auto|]. right. assert (Hr : - G < Z.rem ns G <= 0) by (apply rem_G_neg; lia).
    exists (Z.quot ns G). pose proof (quot_rem_G ns). unfold G in *. lia.
  - intros [Hc|[k Hk]].
    + apply rem_G_pos. exact Hc.
    + unfold G. rewrite Hk, Z.rem_mul by lia. lia.
Qed.

Lemma os_normal ts : os_accepts ts = true <-> normal ts.
Proof.
  unfold os_accepts, normal, G. destruct (Z.leb_spec 0 (tv_nsec ts)), (Z.ltb_spec (tv_nsec ts) 1000000000); simpl; split; intros; try discriminate; try reflexivity; lia.
Qed.

Lemma getMs_pos ts ns : timespec_to_ns ts = Some ns -> 0 <= ns < 2 ^ 63 - 999999 ->
  exists ms, getMs ts = Some ms /\ ns <= ms * 1000000 < ns + 1000000.
Proof.
  intros E H. unfold getMs, bind. rewrite E. destruct (Z.leb_spec 0 ns); [|lia].
  rewrite ck_ok by (unfold int64; lia).
  pose proof (Z.quot_rem (ns + 999999) 1000000 ltac:(lia)) as Hq. pose proof (Z.rem_bound_pos (ns + 999999) 1000000 ltac:(lia) ltac:(lia)) as Hr.
  exists (Z.quot (ns + 999999) 1000000). split; [|lia]. apply ck_ok. unfold int64. lia.
Qed.
Lemma getMs_neg ts ns : timespec_to_ns ts = Some ns -> - 2 ^ 63 + 999999 <= ns < 0 ->
  exists ms, getMs ts = Some ms /\ ns - 1000000 < ms * 1000000 <= ns.
Proof.
  intros E H. unfold getMs, bind. rewrite E. destruct (Z.leb_spec 0 ns); [lia|].
  rewrite ck_ok by (unfold int64; lia).
  pose proof (Z.quot_rem (ns - 999999) 1000000 ltac:(lia)) as Hq. pose proof (@rem_bound_neg (ns - 999999) 1000000 ltac:(lia) ltac:(lia)) as Hr.
  exists (Z.quot (ns - 999999) 1000000). split; [|lia]. apply ck_ok. unfold int64. lia.
Qed.
Lemma getMs_ub ts ns : timespec_to_ns ts = Some ns -> 2 ^ 63 - 999999 <= ns \/ ns < - 2 ^ 63 + 999999 -> getMs ts = None.
Proof.
  intros E H. destruct (timespec_to_ns_some _ E) as [_ Hi]. unfold int64 in Hi. unfold getMs, bind. rewrite E.
  destruct (Z.leb_spec 0 ns); rewrite ck_none; auto; unfold int64; lia.
Qed.

Lemma add_ok a b x y : timespec_to_ns a = Some x -> timespec_to_ns b = Some y -> int64 (x + y) ->
  exists c, ts_add a b = Some c /\ timespec_to_ns c = Some (x + y).
Proof.
  intros Ha Hb H. unfold ts_add, bind. rewrite Ha, Hb, (ck_ok H). destruct (roundtrip H) as (c & Hc & Hv & _). exists c. auto.
Qed.
Lemma sub_ok a b x y : timespec_to_ns a = Some x -> timespec_to_ns b = Some y -> int64 (x - y) ->
  exists c, ts_sub a b = Some c /\ timespec_to_ns c = Some (x - y).
Proof.
  intros Ha Hb H. unfold ts_sub, bind. rewrite Ha, Hb, (ck_ok H). destruct (roundtrip H) as (c & Hc & Hv & _). exists c. auto.
Qed.

Lemma of_td ticks tps ts : 0 < tps -> (tps | G) -> of_time_duration ticks tps = Some ts -> value ts = ticks * (G / tps).
Proof.
  intros Hp [k Hk]. unfold of_time_duration, bind. destruct (ck _) eqn:E; [|discriminate]. apply ck_some in E as [_ ->]. intros [= <-].
  unfold value. simpl. pose proof (Z.quot_rem ticks tps ltac:(lia)) as Hq.
  assert (Z.quot G tps = k) as -> by (rewrite Hk; apply Z.quot_mul; lia).
  assert (G / tps = k) as -> by (rewrite Hk; apply Z.div_mul; lia).
  change 1000000000 with G. rewrite Hk. rewrite Hq at 3. ring.
Qed.
Lemma of_td_def ticks tps : 0 < tps -> (tps | G) -> exists ts, of_time_duration ticks tps = Some ts.
Proof.
  intros Hp [k Hk]. unfold of_time_duration, bind. rewrite ck_ok; [eauto|].
  assert (Z.quot G tps = k) as -> by (rewrite Hk; apply Z.quot_mul; lia).
  assert (Hk0 : 0 < k) by (unfold G in Hk; nia).
  assert (Z.abs (Z.rem ticks tps) < tps) by (pose proof (Z.rem_bound_abs ticks tps); lia).
  assert (Z.abs (Z.rem ticks tps * k) < G) by (rewrite Z.abs_mul, (Z.abs_eq k) by lia; rewrite Hk; nia).
  unfold int64, G in *. lia.
Qed.
