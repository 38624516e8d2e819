(** * Schedulers: the properties from the invariant *)
From Coq Require Import Permutation.
From Verif Require Import SR_Model SR_Spec SR_Proofs.
Set Implicit Arguments.

Lemma begun_bid h i : begun h i <-> In i (flat_map bid h).
Proof.
  unfold begun. rewrite in_flat_map. split.
  - intros (c & [H|(e & H)]); eexists; (split; [exact H|left; reflexivity]).
  - intros (x & Hx & Hi). destruct x; cbn in Hi; try contradiction; destruct Hi as [<-|[]]; eauto.
Qed.
Lemma starts_count i h : starts i h = count_occ Nat.eq_dec (flat_map bid h) i.
Proof.
  unfold starts. induction h as [|e h IH]; [reflexivity|]. cbn [filter flat_map]. rewrite count_occ_app, <- IH. destruct e; cbn [bid count_occ]; try reflexivity.
  - destruct (Nat.eq_dec i0 i) as [->|Hn]; [rewrite Nat.eqb_refl; reflexivity|]. apply Nat.eqb_neq in Hn. rewrite Hn. reflexivity.
  - destruct (Nat.eq_dec i0 i) as [->|Hn]; [rewrite Nat.eqb_refl; reflexivity|]. apply Nat.eqb_neq in Hn. rewrite Hn. reflexivity.
Qed.
Lemma nodup_ids s : inv s -> NoDup (ids s).
Proof. intros HI. exact (Permutation_NoDup (i_ids HI) (seq_NoDup _ _)). Qed.
Lemma nodup_app_r A (l l' : list A) : NoDup (l ++ l') -> NoDup l'.
Proof. induction l; cbn; [auto|]. intros H. inversion H; auto. Qed.
Lemma starts_once s i : inv s -> starts i (hist s) <= 1.
Proof. intros HI. rewrite starts_count. apply NoDup_count_occ. pose proof (nodup_ids HI) as N. unfold ids in N. exact (nodup_app_r _ _ (nodup_app_r _ _ N)). Qed.

Lemma accepted s i d o : inv s -> In (ESub i d o) (hist s) ->
  begun (hist s) i \/ (exists it, In it (pend s) /\ iid it = i /\ due it = d) \/ exists k x it, nth_error (wks s) k = Some x /\ ws x = WCall it /\ iid it = i.
Proof.
  intros HI H. destruct (i_lt HI _ _ _ H) as (Hl & _). assert (Hin : In i (ids s)) by (apply (Permutation_in _ (i_ids HI)), in_seq; lia).
  unfold ids in Hin. apply in_app_or in Hin as [Hin|Hin]; [|apply in_app_or in Hin as [Hin|Hin]].
  - right; left. apply in_map_iff in Hin as (it & E & Hit). exists it. split; [exact Hit|]. split; [exact E|]. pose proof (i_held HI (or_introl Hit)) as A. rewrite E in A. exact (proj1 (i_uniq HI _ _ _ _ _ A H)).
  - right; right. apply in_flat_map in Hin as (x & Hx & Hi). apply In_nth_error in Hx as (k & Hx). unfold cid in Hi. destruct (ws x) as [| |it| |] eqn:E; try contradiction. destruct Hi as [Hi|[]]. eauto 10.
  - left. apply begun_bid. exact Hin.
Qed.

(** ** At rest *)
Lemma least (l : list item) : l <> [] -> exists j it, nth_error l j = Some it /\ forall y, In y l -> (due it <= due y)%Z.
Proof.
  induction l as [|a l IH]; intros H; [congruence|]. destruct l as [|b l].
  - exists 0, a. split; [reflexivity|]. intros y [<-|[]]. lia.
  - destruct IH as (j & it & Hj & Hm); [discriminate|]. destruct (Z.leb_spec (due a) (due it)) as [H1|H1].
    + exists 0, a. split; [reflexivity|]. intros y [<-|Hy]; [lia|]. specialize (Hm _ Hy). lia.
    + exists (S j), it. split; [exact Hj|]. intros y [<-|Hy]; [lia|auto].
Qed.
Lemma rest_worker s k x : inv s -> dead s = false -> at_rest s -> nth_error (wks s) k = Some x ->
  ws x = WGone \/ (exists it, ws x = WIn it) \/ (ws x = WSleep /\ is_due s = false /\ closed s = false).
Proof.
  intros HI Hd (R1 & R2 & _) Hx. specialize (R2 k). unfold exec in R2. rewrite Hd, Hx in R2. unfold wrun in R2. destruct (ws x) as [| |it|it|] eqn:Ew; [exfalso| |exfalso|eauto|auto].
  - destruct (is_due s) eqn:Hdue; [|destruct (closed s); [discriminate|destruct (flag x); discriminate]].
    assert (Hne : pend s <> []) by (intros E; unfold is_due in Hdue; rewrite E in Hdue; discriminate). destruct (least Hne) as (j & it & Hj & Hm).
    specialize (R1 k j). unfold exec in R1. rewrite Hd, Hx in R1. unfold pull in R1. rewrite Ew, Hj in R1.
    unfold is_due in Hdue. apply existsb_exists in Hdue as (y & Hy & Ey). apply Z.leb_le in Ey. specialize (Hm _ Hy) as Hyi.
    assert (E1 : (due it <=? now s)%Z = true) by (apply Z.leb_le; lia). rewrite E1 in R1.
    assert (E2 : forallb (fun y => (due it <=? due y)%Z) (pend s) = true) by (apply forallb_forall; intros z Hz; apply Z.leb_le; auto). rewrite E2 in R1. discriminate.
  - destruct (flag x); [discriminate|]. destruct (is_due s), (closed s); try discriminate. auto.
  - destruct (on it) as [e|] eqn:Eo; [|discriminate].
    assert (Hs : In (ESub (iid it) (due it) (on it)) (hist s)) by (apply (i_held HI); right; eauto). rewrite Eo in Hs. destruct (i_lt HI _ _ _ Hs) as (_ & Hl). specialize (Hl _ eq_refl).
    destruct (nth_error (exs s) e) as [y|] eqn:Hy; [|apply nth_error_None in Hy; lia]. destruct (xcl y); discriminate.
Qed.
Lemma alive s : inv s -> ~ terminated (hist s) -> dead s = false.
Proof. intros HI H. destruct (dead s) eqn:E; [|reflexivity]. apply (i_dead HI) in E. contradiction. Qed.
Lemma due_in s it : In it (pend s) -> (due it <= now s)%Z -> is_due s = true.
Proof. intros H Hd. unfold is_due. apply existsb_exists. exists it. split; [exact H|]. apply Z.leb_le. exact Hd. Qed.

Lemma due_begun n m c z s i d o : reach n m c z s -> at_rest s -> thread_free s -> undisturbed (hist s) -> ~ terminated (hist s) -> (forall c, ~ In (EClose c) (hist s)) ->
  In (ESub i d o) (hist s) -> (d <= now s)%Z -> begun (hist s) i.
Proof.
  intros Hr Ha (k & x & Hx & Hf) (U1 & U2) Ht Hc Hs Hd. pose proof (inv_reach Hr) as HI. pose proof (alive HI Ht) as Al.
  destruct (accepted _ _ _ HI Hs) as [B|[(it & Hit & E1 & E2)|(k' & x' & it & Hx' & E1 & E2)]]; [exact B|exfalso|exfalso].
  - assert (D : is_due s = true) by (apply (due_in _ _ Hit); lia). destruct (rest_worker _ HI Al Ha Hx) as [E|[(it' & E)|(_ & E & _)]]; [|exact (Hf _ E)|congruence].
    destruct (i_gone HI _ Hx E) as [A|[(i' & A)|(A & _)]]; [exact (U1 A)|exact (U2 _ A)|]. apply (i_cl HI) in A as (c' & A). exact (Hc _ A).
  - destruct (rest_worker _ HI Al Ha Hx') as [E|[(it' & E)|(E & _)]]; congruence.
Qed.
Lemma close_begun n m c z s i d o : reach n m c z s -> at_rest s -> thread_free s -> undisturbed (hist s) -> ~ terminated (hist s) ->
  (exists c, In (EClose c) (hist s)) -> In (ESub i d o) (hist s) -> (forall c, In (EClose c) (hist s) -> (d <= c)%Z) -> begun (hist s) i.
Proof.
  intros Hr Ha (k & x & Hx & Hf) (U1 & U2) Ht Hc Hs Hd. pose proof (inv_reach Hr) as HI. pose proof (alive HI Ht) as Al. apply (i_cl HI) in Hc.
  destruct (accepted _ _ _ HI Hs) as [B|[(it & Hit & E1 & E2)|(k' & x' & it & Hx' & E1 & E2)]]; [exact B|exfalso|exfalso].
  - destruct (rest_worker _ HI Al Ha Hx) as [E|[(it' & E)|(_ & _ & E)]]; [|exact (Hf _ E)|congruence].
    destruct (i_gone HI _ Hx E) as [A|[(i' & A)|(_ & A)]]; [exact (U1 A)|exact (U2 _ A)|]. destruct (A _ Hit) as (c' & C & D). specialize (Hd _ C). lia.
  - destruct (rest_worker _ HI Al Ha Hx') as [E|[(it' & E)|(E & _)]]; congruence.
Qed.
Lemma wks_len n m c z s : reach n m c z s -> length (wks s) = n.
Proof.
  induction 1 as [|s l s' Hr IH He]; [cbn; apply repeat_length|]. rewrite <- IH. clear IH. unfold exec in He. destruct (dead s); [discriminate|].
  destruct l as [t o|t|k j|k|k a|d].
  - destruct (nth_error (cls s) t) as [[]|]; try discriminate. destruct o; cbn [call] in He.
    + injection He as <-; reflexivity.
    + destruct (e <? length (exs s)); [injection He as <-; reflexivity|discriminate].
    + injection He as <-; reflexivity.
    + destruct (nth_error (wraps s) w) as [y|]; [destruct (wcl y); injection He as <-; reflexivity|discriminate].
    + injection He as <-; reflexivity.
    + injection He as <-; reflexivity.
    + injection He as <-; reflexivity.
    + destruct (started (hist s)); [discriminate|injection He as <-; reflexivity].
  - destruct (nth_error (cls s) t) as [p|]; [|discriminate]. destruct p as [|w|w|[d k]| |k|]; cbn [crun] in He; try discriminate.
    + destruct (nth_error (wraps s) w) as [y|]; [|discriminate]. destruct (closed s); [|destruct (won y)]; injection He as <-; reflexivity.
    + destruct (nth_error (wraps s) w) as [y|]; [|discriminate]. destruct (won y) as [e|]; [|discriminate]. destruct (nth_error (exs s) e) as [v|]; [|discriminate]. destruct (xcl v); injection He as <-; reflexivity.
    + destruct (closed s); injection He as <-; reflexivity.
    + injection He as <-; reflexivity.
    + destruct (k <? length (wks s)); injection He as <-; [apply modify_length|reflexivity].
    + destruct (forallb gone (wks s)); [injection He as <-; reflexivity|discriminate].
  - destruct (nth_error (wks s) k) as [x|]; [|discriminate]. unfold pull in He. destruct (ws x); try discriminate. destruct (nth_error (pend s) j); [|discriminate]. destruct (_ && _); [|discriminate]. injection He as <-. apply modify_length.
  - destruct (nth_error (wks s) k) as [x|]; [|discriminate]. unfold wrun in He. destruct (ws x) as [| |it| |]; try discriminate.
    + destruct (is_due s); [discriminate|]. destruct (closed s); [|destruct (flag x)]; injection He as <-; apply modify_length.
    + destruct (flag x); [|destruct (is_due s || closed s); [|discriminate]]; injection He as <-; apply modify_length.
    + destruct (on it) as [e|]; [|injection He as <-; apply modify_length]. destruct (nth_error (exs s) e) as [y|]; [|discriminate]. destruct (xcl y); injection He as <-; [reflexivity|apply modify_length].
  - destruct (nth_error (wks s) k) as [x|]; [|discriminate]. unfold wact in He. destruct (ws x) as [| | |it|]; try discriminate. destruct a as [| |b]; [injection He as <-; apply modify_length|injection He as <-; reflexivity|].
    destruct (flag x); [|discriminate]. injection He as <-. apply modify_length.
  - injection He as <-. reflexivity.
Qed.
Lemma destroyed_begun n m c z s i d o : reach n m c z s -> n <> 0 -> undisturbed (hist s) -> In EDestroyed (hist s) ->
  In (ESub i d o) (hist s) -> (forall c, In (EClose c) (hist s) -> (d <= c)%Z) -> begun (hist s) i.
Proof.
  intros Hr Hn (U1 & U2) Hdd Hs Hd. pose proof (inv_reach Hr) as HI. pose proof (wks_len Hr) as Hl.
  destruct (nth_error (wks s) 0) as [x|] eqn:Hx; [|apply nth_error_None in Hx; lia]. pose proof (i_dd HI Hdd _ Hx) as E.
  destruct (accepted _ _ _ HI Hs) as [B|[(it & Hit & E1 & E2)|(k' & x' & it & Hx' & E1 & E2)]]; [exact B|exfalso|exfalso].
  - destruct (i_gone HI _ Hx E) as [A|[(i' & A)|(_ & A)]]; [exact (U1 A)|exact (U2 _ A)|]. destruct (A _ Hit) as (c' & C & D). specialize (Hd _ C). lia.
  - pose proof (i_dd HI Hdd _ Hx'). congruence.
Qed.
Lemma destroyed_ended n m c z s i c' : reach n m c z s -> In EDestroyed (hist s) -> In (ERun i c') (hist s) -> In (EEnd i) (hist s) \/ In (EEscape i) (hist s).
Proof.
  intros Hr Hdd H. pose proof (inv_reach Hr) as HI. destruct (i_run HI _ _ H) as (_ & [A|[A|(k & x & it & Hx & E & _)]]); auto. pose proof (i_dd HI Hdd _ Hx). congruence.
Qed.
Lemma destroy_ends n m c z s c' : reach n m c z s -> at_rest s -> ~ terminated (hist s) -> In (EDestroy c') (hist s) -> ~ In EDestroyed (hist s) -> exists i, being_run (hist s) i.
Proof.
  intros Hr Ha Ht Hd Hn. pose proof (inv_reach Hr) as HI. pose proof (alive HI Ht) as Al. destruct (i_des HI _ Hd) as [A|(t & p & Hp & B)]; [contradiction|].
  pose proof Ha as (_ & _ & R3). specialize (R3 t). unfold exec in R3. rewrite Al, Hp in R3. destruct p as [| | | | |k|]; try contradiction; cbn [crun] in R3.
  - discriminate.
  - destruct (k <? length (wks s)); discriminate.
  - destruct (forallb gone (wks s)) eqn:G; [discriminate|]. assert (E : exists x, In x (wks s) /\ gone x = false).
    { clear - G. induction (wks s) as [|a l IH]; [discriminate|]. cbn in G. destruct (gone a) eqn:E; [|exists a; split; [left; auto|auto]]. destruct (IH G) as (x & Hx & Ex). exists x. split; [right|]; auto. }
    destruct E as (x & Hx & Ex). apply In_nth_error in Hx as (k & Hx). destruct (rest_worker _ HI Al Ha Hx) as [E|[(it & E)|(_ & _ & E)]].
    + unfold gone in Ex. rewrite E in Ex. discriminate.
    + destruct (i_in HI _ Hx E) as (_ & C). exists (iid it). exact C.
    + congruence.
Qed.

(** ** submit throws only if something is closed *)
Definition why (h : list event) : Prop := In EWClose h \/ (exists c, In (EClose c) h) \/ exists e, In (ECloseE e) h.
Lemma why_cons e h : why h -> why (e :: h).
Proof. intros [A|[(c & A)|(c & A)]]; [left; right; auto|right; left; exists c; right; auto|right; right; exists c; right; auto]. Qed.
Definition rejs (h : list event) : Prop := forall h2 h1, h = h2 ++ ERej :: h1 -> why h1.
Lemma rejs_cons e h : rejs h -> (e = ERej -> why h) -> rejs (e :: h).
Proof.
  intros H He [|a h2] h1 E; cbn in E; injection E as E1 E2; [subst; auto|]. exact (H h2 h1 E2).
Qed.
Lemma rejs_reach n m c z s : reach n m c z s -> rejs (hist s).
Proof.
  induction 1 as [|s l s' Hr IH He]; [intros [|? ?] ? E; discriminate|]. pose proof (inv_reach Hr) as HI. unfold exec in He. destruct (dead s); [discriminate|].
  destruct l as [t o|t|k j|k|k a|d].
  - destruct (nth_error (cls s) t) as [[]|]; try discriminate. destruct o; cbn [call] in He.
    + injection He as <-; exact IH.
    + destruct (e <? length (exs s)); [injection He as <-; exact IH|discriminate].
    + injection He as <-; exact IH.
    + destruct (nth_error (wraps s) w) as [y|] eqn:Hy; [|discriminate]. destruct (wcl y) eqn:E; injection He as <-; [|exact IH]. apply rejs_cons; [exact IH|]. intros _. left. exact (proj2 (i_wr HI _ Hy) E).
    + injection He as <-; apply rejs_cons; [exact IH|discriminate].
    + injection He as <-; apply rejs_cons; [exact IH|discriminate].
    + injection He as <-; apply rejs_cons; [exact IH|discriminate].
    + destruct (started (hist s)); [discriminate|injection He as <-; apply rejs_cons; [exact IH|discriminate]].
  - destruct (nth_error (cls s) t) as [p|]; [|discriminate]. destruct p as [|w|w|[d k]| |k|]; cbn [crun] in He; try discriminate.
    + destruct (nth_error (wraps s) w) as [y|]; [|discriminate]. destruct (closed s) eqn:E; [|destruct (won y)]; injection He as <-; try exact IH. apply rejs_cons; [exact IH|]. intros _. right; left. apply (i_cl HI). exact E.
    + destruct (nth_error (wraps s) w) as [y|]; [|discriminate]. destruct (won y) as [e|]; [|discriminate]. destruct (nth_error (exs s) e) as [v|] eqn:Hv; [|discriminate]. destruct (xcl v) eqn:E; injection He as <-; try exact IH.
      apply rejs_cons; [exact IH|]. intros _. right; right. exists e. exact (proj2 (i_x HI _ Hv) E).
    + destruct (closed s) eqn:E; injection He as <-; apply rejs_cons; try exact IH; try discriminate. intros _. right; left. apply (i_cl HI). exact E.
    + injection He as <-; apply rejs_cons; [exact IH|discriminate].
    + destruct (k <? length (wks s)); injection He as <-; exact IH.
    + destruct (forallb gone (wks s)); [injection He as <-; apply rejs_cons; [exact IH|discriminate]|discriminate].
  - destruct (nth_error (wks s) k) as [x|]; [|discriminate]. unfold pull in He. destruct (ws x); try discriminate. destruct (nth_error (pend s) j); [|discriminate]. destruct (_ && _); [|discriminate]. injection He as <-. exact IH.
  - destruct (nth_error (wks s) k) as [x|]; [|discriminate]. unfold wrun in He. destruct (ws x) as [| |it| |]; try discriminate.
    + destruct (is_due s); [discriminate|]. destruct (closed s); [|destruct (flag x)]; injection He as <-; try exact IH. apply rejs_cons; [exact IH|discriminate].
    + destruct (flag x); [|destruct (is_due s || closed s); [|discriminate]]; injection He as <-; try exact IH. apply rejs_cons; [exact IH|discriminate].
    + destruct (on it) as [e|]; [|injection He as <-; apply rejs_cons; [exact IH|discriminate]]. destruct (nth_error (exs s) e) as [y|]; [|discriminate]. destruct (xcl y); injection He as <-; apply rejs_cons; try exact IH; discriminate.
  - destruct (nth_error (wks s) k) as [x|]; [|discriminate]. unfold wact in He. destruct (ws x) as [| | |it|]; try discriminate. destruct a as [| |b]; [injection He as <-; apply rejs_cons; [exact IH|discriminate]| |].
    + injection He as <-. apply rejs_cons; [apply rejs_cons; [exact IH|discriminate]|discriminate].
    + destruct (flag x); [|discriminate]. injection He as <-. destruct b; [exact IH|apply rejs_cons; [exact IH|discriminate]].
  - injection He as <-. exact IH.
Qed.

(** ** scheduling_adaptor *)
Lemma adaptor_is c z s : reach_adaptor c z s -> reach 1 1 c z s.
Proof. induction 1; [constructor|econstructor; eauto]. Qed.
Record plain (s : sys) : Prop := { p_wr : wraps s = []; p_pc : forall t d k, nth_error (cls s) t = Some (PPush (d, k)) -> k = None; p_sub : forall i d k, In (ESub i d k) (hist s) -> k = None }.
Lemma plain_pc s t p es : plain s -> (forall d k, p = PPush (d, k) -> k = None) -> (forall i d k, ~ In (ESub i d k) es) -> plain (set_c s t p es).
Proof.
  intros [A B C] Hp He. constructor; cbn.
  - first [exact A|reflexivity].
  - intros t' d k H. apply nth_mod in H as [(_ & y & _ & H)|(_ & H)]; [exact (Hp _ _ (eq_sym H))|eauto].
  - intros i d k H. apply in_app_or in H as [H|H]; [destruct (He _ _ _ H)|eauto].
Qed.
Lemma plain_hist s s' es : plain s -> wraps s' = wraps s -> cls s' = cls s -> hist s' = es ++ hist s -> (forall i d k, ~ In (ESub i d k) es) -> plain s'.
Proof.
  intros [A B C] E1 E2 E3 He. constructor; rewrite ?E1, ?E2, ?E3; auto. intros i d k H. apply in_app_or in H as [H|H]; [destruct (He _ _ _ H)|eauto].
Qed.
Lemma plain_reach c z s : reach_adaptor c z s -> plain s.
Proof.
  induction 1 as [|s l s' Hr IH Ho He].
  - constructor; cbn; auto; [|intros; contradiction]. intros t d k H. apply nth_repeat in H. discriminate.
  - unfold exec in He. destruct (dead s); [discriminate|]. destruct l as [t o|t|k j|k|k a|d].
    + specialize (Ho t o eq_refl). destruct (nth_error (cls s) t) as [[]|]; try discriminate. destruct o; cbn [adaptor_op call] in *; try contradiction.
      * injection He as <-. apply plain_pc; auto. intros d k E. injection E as _ <-. reflexivity.
      * injection He as <-. apply (@plain_hist _ _ [EClose (now s)] IH); auto. intros i d k [H|[]]. discriminate.
      * injection He as <-. apply (@plain_hist _ _ [ECloseE e] IH); auto. intros i d k [H|[]]. discriminate.
      * destruct (started (hist s)); [discriminate|]. injection He as <-. apply plain_pc; auto; [discriminate|]. intros i d k [H|[]]. discriminate.
    + destruct (nth_error (cls s) t) as [p|] eqn:Ht; [|discriminate]. destruct p as [|w|w|[d k]| |k|]; cbn [crun] in He; try discriminate; rewrite ?(p_wr IH) in He; try (destruct w; discriminate).
      * destruct (closed s) eqn:Ec; injection He as <-.
        -- apply plain_pc; auto; [discriminate|]. intros i d' k' [H|[]]. discriminate.
        -- pose proof (p_pc IH _ Ht). subst k. destruct IH as [A B C]. constructor; cbn.
           ++ first [exact A|reflexivity].
           ++ intros t' d' k' H. apply nth_mod in H as [(_ & y & _ & H)|(_ & H)]; [discriminate|eauto].
           ++ intros i d' k' [H|H]; [congruence|eauto].
      * injection He as <-. destruct IH as [A B C]. constructor; cbn.
        -- first [exact A|reflexivity].
        -- intros t' d' k' H. apply nth_mod in H as [(_ & y & _ & H)|(_ & H)]; [discriminate|eauto].
        -- intros i d' k' [H|H]; [discriminate|eauto].
      * destruct (k <? length (wks s)); injection He as <-.
        -- destruct IH as [A B C]. constructor; cbn; [first [exact A|reflexivity]| |exact C]. intros t' d' k' H. apply nth_mod in H as [(_ & y & _ & H)|(_ & H)]; [discriminate|eauto].
        -- apply plain_pc; auto; discriminate.
      * destruct (forallb gone (wks s)); [|discriminate]. injection He as <-. apply plain_pc; auto; [discriminate|]. intros i d k [H|[]]. discriminate.
    + destruct (nth_error (wks s) k) as [x|]; [|discriminate]. unfold pull in He. destruct (ws x); try discriminate. destruct (nth_error (pend s) j); [|discriminate]. destruct (_ && _); [|discriminate]. injection He as <-.
      apply (@plain_hist _ _ [] IH); auto.
    + assert (G : exists es, wraps s' = wraps s /\ cls s' = cls s /\ hist s' = es ++ hist s /\ forall i d k, ~ In (ESub i d k) es); [|destruct G as (es & E1 & E2 & E3 & E4); exact (@plain_hist _ _ _ IH E1 E2 E3 E4)].
      destruct (nth_error (wks s) k) as [x|]; [|discriminate]. unfold wrun in He. destruct (ws x) as [| |it| |]; try discriminate.
      * destruct (is_due s); [discriminate|]. destruct (closed s); [|destruct (flag x)]; injection He as <-; eexists; (split; [reflexivity|split; [reflexivity|split; [unfold set_w; cbn [hist]; reflexivity|]]]); intros i d k' H; cbn in H; intuition discriminate.
      * destruct (flag x); [|destruct (is_due s || closed s); [|discriminate]]; injection He as <-; eexists; (split; [reflexivity|split; [reflexivity|split; [unfold set_w; cbn [hist]; reflexivity|]]]); intros i d k' H; cbn in H; intuition discriminate.
      * destruct (on it) as [e|].
        -- destruct (nth_error (exs s) e) as [y|]; [|discriminate]. destruct (xcl y); injection He as <-.
           ++ exists [ETerm (iid it)]. cbn. split; [reflexivity|split; [reflexivity|split; [reflexivity|]]]. intros i d k' [H|[]]. discriminate.
           ++ exists [EResub (iid it) e (now s)]. cbn. split; [reflexivity|split; [reflexivity|split; [reflexivity|]]]. intros i d k' [H|[]]. discriminate.
        -- injection He as <-. exists [ERun (iid it) (now s)]. cbn. split; [reflexivity|split; [reflexivity|split; [reflexivity|]]]. intros i d k' [H|[]]. discriminate.
    + assert (G : exists es, wraps s' = wraps s /\ cls s' = cls s /\ hist s' = es ++ hist s /\ forall i d k, ~ In (ESub i d k) es); [|destruct G as (es & E1 & E2 & E3 & E4); exact (@plain_hist _ _ _ IH E1 E2 E3 E4)].
      destruct (nth_error (wks s) k) as [x|]; [|discriminate]. unfold wact in He. destruct (ws x) as [| | |it|]; try discriminate. destruct a as [| |b].
      * injection He as <-. exists [EEnd (iid it)]. cbn. split; [reflexivity|split; [reflexivity|split; [reflexivity|]]]. intros i d k' [H|[]]. discriminate.
      * injection He as <-. exists [ETerm (iid it); EThrew (iid it)]. cbn. split; [reflexivity|split; [reflexivity|split; [reflexivity|]]]. intros i d k' [H|[H|[]]]; discriminate.
      * destruct (flag x); [|discriminate]. injection He as <-. destruct b; eexists; (split; [reflexivity|split; [reflexivity|split; [unfold set_w; cbn [hist]; reflexivity|]]]); intros i d k' H; cbn in H; intuition discriminate.
    + injection He as <-. apply (@plain_hist _ _ [] IH); auto.
Qed.
Lemma adaptor_none c z s i e c' : reach_adaptor c z s -> ~ In (EResub i e c') (hist s).
Proof.
  intros Hr H. destruct (i_res (inv_reach (adaptor_is Hr)) _ _ _ H) as (d & A & _). pose proof (p_sub (plain_reach Hr) _ _ _ A). discriminate.
Qed.
