From Verif Require Export SU_Spec.
Set Implicit Arguments.

Lemma dec_ge p v : Forall digit p -> 0 <= v -> v <= dec v p.
Proof.
  revert v. induction p as [|ch p IH]; intros v Hd Hv; simpl; [lia|]. inversion Hd as [|? ? Hc Hp]; subst. unfold digit in Hc.
  specialize (IH (v * 10 + (ch - 48)) Hp). lia.
Qed.

Lemma umax10 : UINT_MAX / 10 = 429496729 /\ UINT_MAX mod 10 = 5 /\ UINT_MAX = 4294967295.
Proof. repeat split. Qed.

Lemma stu_loop_spec p v n :
  ~ In 0 p -> 0 <= v <= UINT_MAX -> (stu_loop p v = (true, n) <-> Forall digit p /\ dec v p = n /\ n <= UINT_MAX).
Proof.
  destruct umax10 as (E1 & E2 & E3). revert v. induction p as [|ch p IH]; intros v H0 Hv.
  - simpl. split; [intros [= <-]; split; [constructor|]; split; [reflexivity|lia]|intros (_ & -> & _); reflexivity].
  - cbn [stu_loop dec]. assert (ch <> 0) by (intros ->; apply H0; simpl; auto). assert (Hp : ~ In 0 p) by (intros Hi; apply H0; simpl; auto).
    destruct (Z.eqb_spec ch 0); [contradiction|]. rewrite E1, E2.
    destruct (Z.ltb_spec ch 48) as [Hc|Hc]; simpl.
    { split; [discriminate|]. intros (Hd & _). inversion Hd as [|? ? Hx _]; subst. unfold digit in Hx. lia. }
    destruct (Z.ltb_spec 57 ch) as [Hc'|Hc']; simpl.
    { split; [discriminate|]. intros (Hd & _). inversion Hd as [|? ? Hx _]; subst. unfold digit in Hx. lia. }
    destruct (Z.ltb_spec 429496729 v) as [Hb|Hb].
    { split; [discriminate|]. intros (Hd & Hn & Hle). inversion Hd as [|? ? Hx Hp']; subst.
      pose proof (@dec_ge p (v * 10 + (ch - 48)) Hp'). lia. }
    destruct (Z.eqb_spec v 429496729) as [Hq|Hq]; simpl; [destruct (Z.ltb_spec 5 (ch - 48)) as [Hr|Hr]|].
    { split; [discriminate|]. intros (Hd & Hn & Hle). inversion Hd as [|? ? Hx Hp']; subst.
      pose proof (@dec_ge p (429496729 * 10 + (ch - 48)) Hp'). lia. }
    all: assert (Hw : wrap32 (wrap32 (v * 10) + (ch - 48)) = v * 10 + (ch - 48))
         by (unfold wrap32; rewrite (Z.mod_small (v * 10)) by lia; apply Z.mod_small; lia);
         rewrite Hw, IH by (auto; lia);
         split; [intros (A & B & C); repeat split; auto; constructor; auto; unfold digit; lia
                |intros (A & B & C); inversion A; subst; auto].
Qed.

Lemma stu_spec s n : ~ In 0 s -> (string_to_unsigned s = (true, n) <-> decimal s n /\ n <= UINT_MAX).
Proof.
  intros H0. unfold decimal. destruct s as [|ch s].
  - simpl. split; [discriminate|]. intros ((Hn & _) & _). congruence.
  - unfold string_to_unsigned. rewrite stu_loop_spec by (auto; unfold UINT_MAX; lia). split.
    + intros (A & B & C). repeat split; auto. discriminate.
    + intros ((_ & A & B) & C). auto.
Qed.

Lemma stu_nul a b v : ~ In 0 a -> stu_loop (a ++ 0 :: b) v = stu_loop a v.
Proof.
  revert v. induction a as [|ch a IH]; intros v H; simpl; [reflexivity|].
  rewrite IH by (intros Hi; apply H; simpl; auto). reflexivity.
Qed.

Lemma decimal_no_nul s n : decimal s n -> ~ In 0 s.
Proof. intros (_ & Hd & _) Hi. rewrite Forall_forall in Hd. specialize (Hd _ Hi). unfold digit in Hd. lia. Qed.

(** ** trim *)
Lemma is_space_blank ch : (ch = 32 \/ ch = 9 \/ ch = 13 \/ ch = 10) <-> is_space ch = true.
Proof.
  unfold is_space. rewrite !orb_true_iff, !Z.eqb_eq. tauto.
Qed.
Lemma drop_blank b s : blank b -> drop_space (b ++ s) = drop_space s.
Proof.
  induction 1 as [|ch b Hc Hb IH]; simpl; [reflexivity|]. apply is_space_blank in Hc. now rewrite Hc.
Qed.
Definition solid (k : str) : Prop :=
  (exists ch k', k = ch :: k' /\ is_space ch = false) /\ (exists ch k', rev k = ch :: k' /\ is_space ch = false).
Lemma blank_rev b : blank b -> blank (rev b).
Proof. unfold blank. apply Forall_rev. Qed.
Lemma trim_solid b1 k b2 : blank b1 -> blank b2 -> solid k -> string_trim (b1 ++ k ++ b2) = k.
Proof.
  intros H1 H2 [(ch & k' & -> & Hc) (ch2 & k2 & E2 & Hc2)]. unfold string_trim. rewrite drop_blank by auto.
  cbn [app drop_space]. rewrite Hc. change (ch :: k' ++ b2) with ((ch :: k') ++ b2).
  rewrite rev_app_distr, drop_blank by (now apply blank_rev). rewrite E2. cbn [drop_space]. rewrite Hc2, <- E2. apply rev_involutive.
Qed.
Lemma decimal_solid s n : decimal s n -> solid s.
Proof.
  assert (Hd : forall ch, digit ch -> is_space ch = false).
  { intros ch H. destruct (is_space ch) eqn:E; [|reflexivity]. apply is_space_blank in E. unfold digit in H. lia. }
  intros (Hn & HF & _). split.
  - destruct s as [|ch s]; [congruence|]. exists ch, s. split; [reflexivity|]. inversion HF; auto.
  - destruct (rev s) as [|ch k] eqn:E; [apply (f_equal (@rev Z)) in E; rewrite rev_involutive in E; simpl in E; congruence|].
    exists ch, k. split; [reflexivity|]. apply Hd. apply Forall_rev in HF. rewrite E in HF. inversion HF; auto.
Qed.
Lemma phys_solid : solid physical_id.
Proof. split; do 2 eexists; (split; [reflexivity|reflexivity]). Qed.
Lemma core_solid : solid core_id.
Proof. split; do 2 eexists; (split; [reflexivity|reflexivity]). Qed.

Lemma split_at k v : ~ In 58 k -> split_colon (k ++ 58 :: v) = Some (k, v).
Proof.
  induction k as [|ch k IH]; intros H; simpl; [reflexivity|]. destruct (Z.eqb_spec ch 58) as [->|Hne]; [exfalso; apply H; simpl; auto|].
  rewrite IH; [reflexivity|]. intros Hi. apply H. simpl. auto.
Qed.
Lemma str_eqb_spec a b : str_eqb a b = true <-> a = b.
Proof.
  revert b. induction a as [|x a IH]; intros [|y b]; simpl; split; try discriminate; try reflexivity.
  - rewrite andb_true_iff, Z.eqb_eq, IH. intros [-> ->]. reflexivity.
  - intros [= -> ->]. rewrite andb_true_iff, Z.eqb_eq, IH. auto.
Qed.
Lemma str_eqb_refl a : str_eqb a a = true.
Proof. now apply str_eqb_spec. Qed.
Lemma blank_colon b : blank b -> ~ In 58 b.
Proof. unfold blank. rewrite Forall_forall. intros H Hi. specialize (H _ Hi). lia. Qed.

(** ** the loop *)
Lemma loop_other o rest cur cores hw : Forall other o -> phys_loop (o ++ rest) cur cores hw = phys_loop rest cur cores hw.
Proof.
  induction 1 as [|l o Hl Ho IH]; [reflexivity|]. destruct Hl as [->|(k & v & -> & Hk & H1 & H2)]; [exact IH|].
  cbn [app phys_loop]. destruct (k ++ 58 :: v) as [|ch line] eqn:E; [destruct k; discriminate|]. rewrite <- E.
  rewrite split_at by auto.
  destruct (str_eqb (string_trim k) physical_id) eqn:E1; [apply str_eqb_spec in E1; contradiction|].
  destruct (str_eqb (string_trim k) core_id) eqn:E2; [apply str_eqb_spec in E2; contradiction|]. exact IH.
Qed.

Lemma line_split key s n line : solid key -> ~ In 58 key -> decimal s n -> n <= UINT_MAX -> line_of key s line ->
  exists ch line', line = ch :: line' /\ exists k v, split_colon line = Some (k, v) /\ string_trim k = key /\
    string_to_unsigned (string_trim v) = (true, n).
Proof.
  intros Hs Hc Hd Hn (b1 & b2 & b3 & b4 & H1 & H2 & H3 & H4 & ->).
  destruct (b1 ++ key ++ b2 ++ [58] ++ b3 ++ s ++ b4) as [|ch line'] eqn:E.
  { exfalso. apply app_eq_nil in E as [_ E]. apply app_eq_nil in E as [E _]. destruct Hs as [(c & k' & -> & _) _]. discriminate. }
  exists ch, line'. split; [reflexivity|]. rewrite <- E. exists (b1 ++ key ++ b2), (b3 ++ s ++ b4).
  split; [|split; [now apply trim_solid|]].
  - replace (b1 ++ key ++ b2 ++ [58] ++ b3 ++ s ++ b4) with ((b1 ++ key ++ b2) ++ 58 :: b3 ++ s ++ b4)
      by (rewrite <- !app_assoc; reflexivity).
    apply split_at. rewrite !in_app_iff. intros [H|[H|H]]; [exact (blank_colon H1 H)|exact (Hc H)|exact (blank_colon H2 H)].
  - rewrite trim_solid; [|auto|auto|exact (decimal_solid Hd)]. apply stu_spec; [exact (decimal_no_nul Hd)|auto].
Qed.

Lemma loop_processor p c ls rest cur cores hw :
  processor p c ls -> phys_loop (ls ++ rest) cur cores hw = phys_loop rest (p, c) (insert (p, c) cores) hw.
Proof.
  intros (o1 & lp & o2 & lc & o3 & sp & sc & -> & H1 & H2 & H3 & Hp & Hc & Dp & Dc & Mp & Mc).
  rewrite <- !app_assoc, loop_other by auto.
  assert (Np : ~ In 58 physical_id) by (simpl; lia). assert (Nc : ~ In 58 core_id) by (simpl; lia).
  destruct (line_split phys_solid Np Dp Mp Hp) as (ch1 & l1 & E1 & k1 & v1 & S1 & T1 & U1).
  destruct (line_split core_solid Nc Dc Mc Hc) as (ch2 & l2 & E2 & k2 & v2 & S2 & T2 & U2).
  cbn [app phys_loop]. rewrite E1, <- E1, S1. cbv zeta. rewrite T1, str_eqb_refl, U1. rewrite loop_other by auto.
  cbn [app phys_loop]. rewrite E2, <- E2, S2. cbv zeta. rewrite T2.
  change (str_eqb core_id physical_id) with false. cbv iota. rewrite str_eqb_refl, U2. rewrite loop_other by auto. reflexivity.
Qed.

Lemma entry_eqb_spec a b : entry_eqb a b = true <-> a = b.
Proof.
  destruct a as [x y], b as [z w]. unfold entry_eqb. simpl. rewrite andb_true_iff, !Z.eqb_eq. split; [intros [-> ->]; auto|intros [= -> ->]; auto].
Qed.
Lemma insert_spec e s : NoDup s -> NoDup (insert e s) /\ forall x, In x (insert e s) <-> x = e \/ In x s.
Proof.
  intros Hn. unfold insert. destruct (existsb (entry_eqb e) s) eqn:E.
  - apply existsb_exists in E as (y & Hy & E). apply entry_eqb_spec in E. subst y. split; [exact Hn|]. intros x. split; [auto|intros [->|]; auto].
  - assert (~ In e s).
    { intros Hi. assert (existsb (entry_eqb e) s = true) by (apply existsb_exists; exists e; split; auto; now apply entry_eqb_spec). congruence. }
    split; [now constructor|]. intros x. simpl. split; [intros [->|]; auto|intros [->|]; auto].
Qed.

Lemma loop_cpuinfo l lines : cpuinfo l lines -> forall cur cores hw, NoDup cores ->
  exists d, NoDup d /\ (forall x, In x d <-> In x cores \/ In x l) /\ phys_loop lines cur cores hw = match d with [] => hw | _ => length d end.
Proof.
  induction 1 as [|p c ls l rest Hp Hr IH]; intros cur cores hw Hn.
  - exists cores. split; [exact Hn|]. split; [simpl; tauto|]. destruct cores; reflexivity.
  - rewrite (loop_processor rest cur cores hw Hp). destruct (insert_spec (p, c) Hn) as [N1 I1].
    destruct (IH (p, c) (insert (p, c) cores) hw N1) as (d & Nd & Id & Ed). exists d. split; [exact Nd|]. split; [|exact Ed].
    intros x. rewrite Id, I1. simpl. split; [intros [[->|]|]; auto|intros [|[<-|]]; auto].
Qed.
