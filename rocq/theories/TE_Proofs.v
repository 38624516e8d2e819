From Verif Require Export TE_Spec TS_Proofs.
Set Implicit Arguments.

Definition wcount (k v : nat) (l : list node) : nat := length (filter (fun n => (n_key n =? k) && (n_val n =? v)) l).

(** ** Exit functions *)
Definition cbinvx (c : conf) : Prop :=
  forall g, registered g (c_st c) = ran g (c_st c) + count_occ Nat.eq_dec (cbs (c_st c)) g + count_occ Nat.eq_dec (c_cbs c) g.

(** with an offset, as in [TS_Proofs.cbinv] *)
Lemma reg_ran_exec hasf allowed :
  (forall busy s o r, exec hasf allowed busy s o r -> forall s' g, r = Some s' ->
     registered g s' + count_occ Nat.eq_dec (cbs s) g = registered g s + count_occ Nat.eq_dec (cbs s') g /\ ran g s' = ran g s) /\
  (forall busy s ops r, execs hasf allowed busy s ops r -> forall s' g, r = Some s' ->
     registered g s' + count_occ Nat.eq_dec (cbs s) g = registered g s + count_occ Nat.eq_dec (cbs s') g /\ ran g s' = ran g s).
Proof.
  assert (Hif : forall b e s g, is_registered g e = false -> registered g (add_ev_if b e s) = registered g s).
  { intros b e s g H. destruct b; [|reflexivity]. unfold registered, count. simpl. now rewrite H. }
  assert (Hifr : forall b e s g, is_run g e = false -> ran g (add_ev_if b e s) = ran g s).
  { intros b e s g H. destruct b; [|reflexivity]. unfold ran, count. simpl. now rewrite H. }
  assert (Hc : forall b e s, cbs (add_ev_if b e s) = cbs s) by (intros [] e s; reflexivity).
  assert (Hf : forall k i f v s s' g, set_found k i f v s = Some s' -> registered g s' = registered g s /\ cbs s' = cbs s /\ ran g s' = ran g s).
  { intros k i f v s s' g. unfold set_found. destruct (f || _); [destruct (has_id i s); [|discriminate]|]; intros [= <-]; [|auto].
    rewrite Hif, Hifr, Hc by reflexivity. auto. }
  apply both. apply (exec_both (hasf := hasf) (allowed := allowed)
    (fun busy s o r => forall s' g, r = Some s' -> registered g s' + count_occ Nat.eq_dec (cbs s) g = registered g s + count_occ Nat.eq_dec (cbs s') g /\ ran g s' = ran g s)
    (fun busy s ops r => forall s' g, r = Some s' -> registered g s' + count_occ Nat.eq_dec (cbs s) g = registered g s + count_occ Nat.eq_dec (cbs s') g /\ ran g s' = ran g s)).
  - intros busy s g _ s' g' [= <-]. unfold registered, ran, count. simpl.
    destruct (Nat.eqb_spec g g') as [->|Hne]; [destruct (Nat.eq_dec g' g') as [_|n]; [simpl; lia|congruence]|].
    destruct (Nat.eq_dec g g'); [congruence|]. auto.
  - intros busy s k v _ _ s' g [= <-]. auto.
  - intros busy s o k f v c _ _ _ s' g [= <-]. unfold set_new. destruct (f || _); [|auto]. rewrite Hif, Hifr, Hc by reflexivity. auto.
  - intros busy s o k f v c n _ _ _ _ s' g Hs. destruct (Hf _ _ _ _ _ _ g Hs) as (-> & -> & ->). rewrite Hif, Hifr, Hc by (destruct c; reflexivity). auto.
  - intros busy s o k f v n ops s1 _ _ _ _ _ IH s' g Hs. destruct (Hf _ _ _ _ _ _ g Hs) as (-> & -> & ->). exact (IH s1 g eq_refl).
  - intros; discriminate.
  - intros busy s s' g [= <-]. auto.
  - intros busy s o s1 ops r _ IH1 _ IH2 s' g Hr. destruct (IH1 s1 g eq_refl) as [A1 A2], (IH2 s' g Hr) as [B1 B2]. split; [lia|congruence].
  - intros; discriminate.
Qed.

Lemma cbx hasf allowed limit ops r : ending hasf allowed limit ops r -> forall c, r = Some c -> cbinvx c.
Proof.
  induction 1 as [s Hx|Hx|r old g rest s fops s1 _ IH Hx|r old g rest s fops _ IH Hx|r old s n _ IH Hin Hc|r old s n fops s1 _ IH Hin Hc Hx|r old s n fops _ IH Hin Hc Hx|r s _ IH Hne Hl];
    intros c Hr; try discriminate; injection Hr as <-; intros g'.
  - destruct (proj2 (reg_ran_exec hasf allowed) _ _ _ _ Hx s g' eq_refl) as [A B]. unfold cbinvx, next_round. cbn [c_st c_cbs cbs].
    change (registered g' (MkSt [] [] (fresh s) (log s))) with (registered g' s). change (ran g' (MkSt [] [] (fresh s) (log s))) with (ran g' s).
    rewrite B. unfold registered, ran, count in *. simpl in *. lia.
  - specialize (IH _ eq_refl g'). cbn [c_st c_cbs] in *. destruct (proj2 (reg_ran_exec hasf allowed) _ _ _ _ Hx s1 g' eq_refl) as [A B].
    rewrite B. unfold registered, ran, count in *. simpl in *.
    destruct (Nat.eqb_spec g g') as [->|Hg]; [destruct (Nat.eq_dec g' g') as [_|n]; [simpl; lia|congruence]|].
    destruct (Nat.eq_dec g g'); [congruence|]. lia.
  - specialize (IH _ eq_refl g'). cbn [c_st c_cbs] in *. destruct (negb _); exact IH.
  - specialize (IH _ eq_refl g'). cbn [c_st c_cbs] in *. destruct (proj2 (reg_ran_exec hasf allowed) _ _ _ _ Hx s1 g' eq_refl) as [A B].
    rewrite B. unfold registered, ran, count in *. simpl in *. lia.
  - specialize (IH _ eq_refl g'). cbn [c_st c_cbs next_round cbs] in *. simpl in *. unfold registered, ran in *. simpl. lia.
Qed.

(** ** Values *)
Record wfo (hasf : nat -> bool) (old : list node) : Prop := {
  wo_keys : NoDup (map n_key old);
  wo_ids : NoDup (map n_id old);
  wo_func : forall n, In n old -> n_func n = hasf (n_key n) \/ (n_func n = false /\ n_val n = 0) }.

Lemma wf_wfo hasf s : wf hasf s -> wfo hasf (tss s).
Proof. intros [H1 H2 H3 H4]. constructor; auto. Qed.
Lemma wfo_without hasf n l : wfo hasf l -> wfo hasf (without n l).
Proof.
  intros [H1 H2 H3]. constructor; [now apply NoDup_filter_map|now apply NoDup_filter_map|]. intros m Hm. apply filter_In in Hm as [Hm _]. auto.
Qed.
Lemma wf_empty hasf s : wf hasf (MkSt [] [] (fresh s) (log s)).
Proof. constructor; simpl; [constructor|constructor|intros n []|intros n []]. Qed.

Lemma wcount_notin k v l : ~ In k (map n_key l) -> wcount k v l = 0.
Proof.
  unfold wcount. induction l as [|n l IH]; simpl; auto. intros H. destruct (Nat.eqb_spec (n_key n) k) as [E|E]; [exfalso; auto|]. simpl. auto.
Qed.
Lemma held_wcount k v s : NoDup (map n_key (tss s)) -> v <> 0 -> held k v s = wcount k v (tss s).
Proof.
  intros Hd Hv. unfold held, get, find_node. induction (tss s) as [|n l IH]; simpl in *.
  - destruct v; [congruence|reflexivity].
  - inversion Hd as [|? ? Hn Hd']. subst. unfold wcount in *. simpl. destruct (Nat.eqb_spec (n_key n) k) as [E|E]; simpl.
    + subst k. fold (wcount (n_key n) v l). destruct (n_val n =? v); simpl; fold (wcount (n_key n) v l); rewrite wcount_notin; auto.
    + auto.
Qed.
Lemma filter_without p n l : ~ In (n_id n) (map n_id l) -> filter p (without n l) = filter p l.
Proof.
  intros H. f_equal. unfold without. induction l as [|m l IH]; simpl in *; auto. destruct (Nat.eqb_spec (n_id m) (n_id n)) as [E|E]; [exfalso; auto|].
  simpl. f_equal. auto.
Qed.
Lemma wcount_without k v n l : NoDup (map n_id l) -> In n l ->
  wcount k v l = wcount k v (without n l) + (if (n_key n =? k) && (n_val n =? v) then 1 else 0).
Proof.
  unfold wcount. induction l as [|m l IH]; [intros _ []|]. intros Hd Hin. inversion Hd as [|? ? Hn Hd']. subst.
  destruct (Nat.eq_dec (n_id m) (n_id n)) as [E|E].
  - assert (Hmn : m = n) by (eapply id_inj; [exact Hd| | |exact E]; simpl; auto). subst m.
    unfold without at 1. simpl. rewrite Nat.eqb_refl. simpl. fold (without n l). rewrite (filter_without _ _ _ Hn). destruct (_ && _); simpl; lia.
  - destruct Hin as [->|Hin]; [congruence|]. unfold without. simpl. apply Nat.eqb_neq in E. rewrite E. simpl. fold (without n l).
    specialize (IH Hd' Hin). destruct ((n_key m =? k) && (n_val m =? v)); simpl; lia.
Qed.

Definition invx (hasf : nat -> bool) (c : conf) : Prop :=
  wfo hasf (c_old c) /\ inv hasf (fun k v => wcount k v (c_old c)) (c_st c).

Lemma inv_ran hasf off g s : inv hasf off s -> inv hasf off (add_ev (ERan g) s).
Proof. intros [Hw Hb]. split; [now apply wf_log|]. intros k. eapply same_bal; [|apply Hb]. apply same_ev. reflexivity. Qed.

Lemma inv_next hasf r s : inv hasf (fun _ _ => 0) s -> invx hasf (next_round r s).
Proof.
  intros [Hw Hb]. split; [apply wf_wfo; exact Hw|]. split; [apply wf_empty|]. intros k Hk v Hv. specialize (Hb k Hk v Hv).
  rewrite (held_wcount k s (w_keys Hw) Hv) in Hb. cbn [c_old next_round c_st].
  change (installed k v (MkSt [] [] (fresh s) (log s))) with (installed k v s). change (cleaned k v (MkSt [] [] (fresh s) (log s))) with (cleaned k v s).
  change (released k v (MkSt [] [] (fresh s) (log s))) with (released k v s). unfold held, get, find_node. simpl. destruct v as [|v]; [congruence|]. simpl. lia.
Qed.

Lemma inv_plain hasf old s n : wfo hasf old -> In n old -> n_func n && negb (n_val n =? 0) = false ->
  inv hasf (fun k v => wcount k v old) s ->
  inv hasf (fun k v => wcount k v (without n old)) (add_ev_if (negb (n_val n =? 0)) (EDropped (n_key n) (n_val n)) s).
Proof.
  intros Ho Hin Hc [Hw Hb]. split; [now apply wf_log_if|]. intros k Hk v Hv.
  assert (E : wcount k v old = wcount k v (without n old)).
  { rewrite (wcount_without k v n old (wo_ids Ho) Hin). destruct (Nat.eqb_spec (n_key n) k) as [E1|E1]; simpl; [|lia].
    destruct (Nat.eqb_spec (n_val n) v) as [E2|E2]; [|lia]. exfalso. destruct (wo_func Ho _ Hin) as [E'|[_ E']]; [|congruence].
    rewrite E1, Hk in E'. rewrite E' in Hc. simpl in Hc. apply negb_false_iff, Nat.eqb_eq in Hc. congruence. }
  rewrite <- E. revert Hk v Hv E. pose proof (Hb k) as Hbk. intros Hk v Hv E. pose proof (Hbk Hk v Hv) as H.
  destruct (negb (n_val n =? 0)); exact H.
Qed.
Lemma inv_clean hasf old s n : wfo hasf old -> In n old -> n_func n && negb (n_val n =? 0) = true ->
  inv hasf (fun k v => wcount k v old) s ->
  inv hasf (fun k v => wcount k v (without n old)) (add_ev (ECleaned (n_key n) (n_val n)) s).
Proof.
  intros Ho Hin Hc [Hw Hb]. split; [now apply wf_log|]. intros k Hk v Hv. specialize (Hb k Hk v Hv). cbv beta in *.
  rewrite (wcount_without k v n old (wo_ids Ho) Hin) in Hb. unfold installed, cleaned, released, held, get, find_node in *. cbn [add_ev log tss].
  rewrite !count_cons. cbn [is_installed is_cleaned is_released]. lia.
Qed.

Lemma invx_ending hasf limit ops r : ending hasf disciplined limit ops r -> exists c, r = Some c /\ invx hasf c.
Proof.
  induction 1 as [s Hx|Hx|r old g rest s fops s1 _ IH Hx|r old g rest s fops _ IH Hx|r old s n _ IH Hin Hc|r old s n fops s1 _ IH Hin Hc Hx|r old s n fops _ IH Hin Hc Hx|r s _ IH Hne Hl].
  - destruct (inv_execs Hx eq_refl (inv0 hasf)) as (s' & E & H). injection E as <-. eexists. split; [reflexivity|]. now apply inv_next.
  - destruct (inv_execs Hx eq_refl (inv0 hasf)) as (s' & E & H). discriminate.
  - destruct IH as (c & E & Ho & H). injection E as <-. cbn [c_old c_st] in *.
    destruct (inv_execs Hx eq_refl (inv_ran g H)) as (s' & E & H'). injection E as <-. eexists. split; [reflexivity|]. split; auto.
  - destruct IH as (c & E & Ho & H). injection E as <-. destruct (inv_execs Hx eq_refl (inv_ran g H)) as (s' & E & H'). discriminate.
  - destruct IH as (c & E & Ho & H). injection E as <-. cbn [c_old c_st] in *. eexists. split; [reflexivity|]. split; [now apply wfo_without|]. now apply inv_plain.
  - destruct IH as (c & E & Ho & H). injection E as <-. cbn [c_old c_st] in *.
    destruct (inv_execs Hx eq_refl (inv_clean n Ho Hin Hc H)) as (s' & E & H'). injection E as <-. eexists. split; [reflexivity|]. split; [now apply wfo_without|exact H'].
  - destruct IH as (c & E & Ho & H). injection E as <-. cbn [c_old c_st] in *. destruct (inv_execs Hx eq_refl (inv_clean n Ho Hin Hc H)) as (s' & E & H'). discriminate.
  - destruct IH as (c & E & Ho & H). injection E as <-. eexists. split; [reflexivity|]. now apply inv_next.
Qed.

(** ** A value that is never cleaned up *)
(** one object with a cleanup function; the function called with [v] installs [v - 1] *)
Definition down (r i v : nat) (h : list event) : conf := MkC r [] [] (MkSt [MkN 1 i true v] [] (S i) h).

Lemma down_step limit ops r i v h : ending (fun _ => true) disciplined limit ops (Some (down r i (S (S v)) h)) -> r < limit ->
  ending (fun _ => true) disciplined limit ops (Some (down (S r) (S i) (S v) (EInstalled 1 (S v) :: ECleaned 1 (S (S v)) :: h))).
Proof.
  intros H Hl. apply en_round in H; [|intros [E _]; discriminate E|exact Hl]. unfold next_round in H. cbn [tss cbs fresh log] in H.
  apply (@en_clean (fun _ => true) disciplined limit ops (S r) [MkN 1 i true (S (S v))] _ (MkN 1 i true (S (S v))) [OReset 1 (S v)]
           (MkSt [MkN 1 (S i) true (S v)] [] (S (S i)) (EInstalled 1 (S v) :: ECleaned 1 (S (S v)) :: h))) in H; [|left; reflexivity|reflexivity|].
  - unfold without in H. simpl in H. rewrite Nat.eqb_refl in H. simpl in H. exact H.
  - eapply xs_cons; [|apply xs_nil].
    refine (@x_new (fun _ => true) disciplined [] _ (OReset 1 (S v)) 1 true (S v) true eq_refl _ _); reflexivity.
Qed.
Lemma down_steps limit ops j : forall r i v h, ending (fun _ => true) disciplined limit ops (Some (down r i (j + S v) h)) -> r + j <= limit ->
  (forall x, x <= S v -> count (is_cleaned 1 x) h = 0 /\ count (is_released 1 x) h = 0 /\ (x < j + S v -> count (is_installed 1 x) h = 0)) ->
  (j = 0 -> count (is_installed 1 (S v)) h = 1) ->
  exists h', ending (fun _ => true) disciplined limit ops (Some (down (r + j) (i + j) (S v) h')) /\
    count (is_installed 1 (S v)) h' = 1 /\ count (is_cleaned 1 (S v)) h' = 0 /\ count (is_released 1 (S v)) h' = 0.
Proof.
  induction j as [|j IH]; intros r i v h H Hl Hh H1.
  - exists h. rewrite !Nat.add_0_r. destruct (Hh (S v) (le_n _)) as (A & B & _). split; [exact H|]. auto.
  - assert (E : S j + S v = S (S (j + v))) by lia. rewrite E in H. apply down_step in H; [|lia].
    replace (S (j + v)) with (j + S v) in H at 1 by lia.
    destruct (IH (S r) (S i) v _ H ltac:(lia)) as (h' & H' & Hc).
    + intros x Hx. destruct (Hh x Hx) as (A & B & C). rewrite !count_cons. cbn [is_cleaned is_released is_installed].
      destruct (Nat.eqb_spec (S (S (j + v))) x) as [Ex|Ex]; [lia|]. cbn [Nat.eqb andb]. rewrite A, B. split; [reflexivity|]. split; [reflexivity|].
      intros Hlt. apply Nat.eqb_neq in Ex. rewrite C by lia. destruct (Nat.eqb_spec (S (j + v)) x) as [Ey|Ey]; [lia|]. apply Nat.eqb_neq in Ey. change (match x with 0 => false | S m' => j + v =? m' end) with (S (j + v) =? x). rewrite Ey. reflexivity.
    + intros ->. rewrite !count_cons. cbn [is_installed]. simpl (0 + v). rewrite !Nat.eqb_refl. simpl.
      destruct (Hh (S v) (le_n _)) as (_ & _ & C). rewrite C by lia. reflexivity.
    + exists h'. replace (r + S j) with (S r + j) by lia. replace (i + S j) with (S i + j) by lia. auto.
Qed.

(** ** notify_all_at_thread_exit and set_value_at_thread_exit *)
Lemma xcount_app p a b : xcount p (a ++ b) = xcount p a + xcount p b.
Proof. unfold xcount. now rewrite filter_app, app_length. Qed.
Definition ncount (f : nat * nat -> nat) (x : nat) (l : list (nat * nat)) : nat := length (filter (fun a => f a =? x) l).

Record xinv (lib : bool) (s : xst) : Prop := {
  xi_lib : x_lib s = lib;
  xi_data : lib = true -> x_data s = true;
  xi_un : lib = true -> forall m, xcount (asked_with m) (x_log s) = xcount (unlocked m) (x_log s) + ncount snd m (x_notify s);
  xi_no : lib = true -> forall c, xcount (asked_for c) (x_log s) = xcount (notified c) (x_log s) + ncount fst c (x_notify s);
  xi_rd : lib = true -> forall p, xcount (promised p) (x_log s) = xcount (made_ready p) (x_log s) + length (filter (fun q => q =? p) (x_states s));
  xi_ext : lib = false -> forall m, xcount (unlocked m) (x_log s) <= xcount (asked_with m) (x_log s);
  xi_none : lib = false -> forall x, xcount (notified x) (x_log s) = 0 /\ xcount (made_ready x) (x_log s) = 0 }.

Lemma xinv0 lib : xinv lib (xst0 lib).
Proof. constructor; simpl; auto. Qed.
Lemma xinv_exec lib s o : xinv lib s -> xinv lib (xexec s o).
Proof.
  intros [H1 H2 H3 H4 H5 H6 H7]. destruct o as [|c m|p]; simpl.
  - constructor; auto.
  - destruct lib.
    + specialize (H2 eq_refl). specialize (H3 eq_refl). specialize (H4 eq_refl). specialize (H5 eq_refl). rewrite H2, H1.
      constructor; simpl; auto; try discriminate; intros _ x; rewrite !xcount_app; unfold ncount; rewrite ?filter_app, ?app_length; unfold xcount at 2 4; simpl.
      * specialize (H3 x). unfold ncount in H3. destruct (m =? x); simpl; lia.
      * specialize (H4 x). unfold ncount in H4. destruct (c =? x); simpl; lia.
      * specialize (H5 x). lia.
    + specialize (H6 eq_refl). specialize (H7 eq_refl). rewrite H1.
      destruct (x_data s); constructor; simpl; auto; try discriminate; intros _ x; rewrite !xcount_app; unfold xcount at 2 4; simpl.
      * specialize (H6 x). destruct (m =? x); simpl; lia.
      * destruct (H7 x). lia.
      * specialize (H6 x). destruct (m =? x); simpl; lia.
      * destruct (H7 x). lia.
  - destruct lib.
    + specialize (H2 eq_refl). specialize (H3 eq_refl). specialize (H4 eq_refl). specialize (H5 eq_refl). rewrite H2, H1.
      constructor; simpl; auto; try discriminate; intros _ x; rewrite !xcount_app; rewrite ?filter_app, ?app_length; unfold xcount at 2 4; simpl.
      * specialize (H3 x). lia.
      * specialize (H4 x). lia.
      * specialize (H5 x). destruct (p =? x); simpl; lia.
    + specialize (H6 eq_refl). specialize (H7 eq_refl). rewrite H1.
      destruct (x_data s); constructor; simpl; auto; try discriminate; intros _ x; rewrite !xcount_app; unfold xcount at 2 4; simpl.
      * specialize (H6 x). lia.
      * destruct (H7 x). lia.
      * specialize (H6 x). lia.
      * destruct (H7 x). lia.
Qed.
Lemma xinv_execs lib ops : forall s, xinv lib s -> xinv lib (xexecs s ops).
Proof. unfold xexecs. induction ops as [|o ops IH]; intros s H; simpl; auto. apply IH. now apply xinv_exec. Qed.

Lemma done_notes p x (f : nat * nat -> nat) l : (forall cm, xcount p [VUnlocked (snd cm); VNotified (fst cm)] = if f cm =? x then 1 else 0) ->
  xcount p (flat_map (fun cm => [VUnlocked (snd cm); VNotified (fst cm)]) l) = ncount f x l.
Proof.
  intros H. unfold ncount. induction l as [|cm l IH]; [reflexivity|]. cbn [flat_map]. rewrite xcount_app, IH, H. simpl. destruct (f cm =? x); reflexivity.
Qed.
Lemma none_notes p l : (forall cm, xcount p [VUnlocked (snd cm); VNotified (fst cm)] = 0) -> xcount p (flat_map (fun cm => [VUnlocked (snd cm); VNotified (fst cm)]) l) = 0.
Proof. intros H. induction l as [|cm l IH]; [reflexivity|]. cbn [flat_map]. now rewrite xcount_app, IH, H. Qed.
Lemma none_ready p l : (forall q, p (VReady q) = false) -> xcount p (map VReady l) = 0.
Proof. intros H. unfold xcount. induction l as [|q l IH]; simpl; auto. now rewrite H. Qed.
Lemma done_ready x l : xcount (made_ready x) (map VReady l) = length (filter (fun q => q =? x) l).
Proof. unfold xcount. induction l as [|q l IH]; simpl; auto. destruct (q =? x); simpl; auto. Qed.

Lemma xthread_lib ops : all_done (xthread true ops).
Proof.
  unfold xthread. pose proof (xinv_execs ops (xinv0 true)) as [H1 _ H3 H4 H5 _ _].
  specialize (H3 eq_refl). specialize (H4 eq_refl). specialize (H5 eq_refl). unfold xdestroy. rewrite H1. cbn [x_log].
  repeat split; intros x; rewrite !xcount_app.
  - rewrite H3, (@done_notes (unlocked x) x snd), (@none_notes (asked_with x)), !none_ready; auto; [lia|]. intros cm. unfold xcount. simpl. destruct (snd cm =? x); reflexivity.
  - rewrite H4, (@done_notes (notified x) x fst), (@none_notes (asked_for x)), !none_ready; auto; [lia|]. intros cm. unfold xcount. simpl. destruct (fst cm =? x); reflexivity.
  - rewrite H5, (@none_notes (made_ready x)), (@none_notes (promised x)), done_ready, none_ready; try lia; auto.
Qed.
Lemma xthread_ext ops : (forall m, xcount (unlocked m) (xthread false ops) <= xcount (asked_with m) (xthread false ops)) /\
  (forall x, xcount (notified x) (xthread false ops) = 0 /\ xcount (made_ready x) (xthread false ops) = 0).
Proof.
  unfold xthread. pose proof (xinv_execs ops (xinv0 false)) as [H1 _ _ _ _ H6 H7]. unfold xdestroy. rewrite H1. cbn [x_log].
  split; intros x; rewrite !xcount_app; [specialize (H6 eq_refl x)|destruct (H7 eq_refl x)]; unfold xcount at 2 3 5 6; simpl; lia.
Qed.
