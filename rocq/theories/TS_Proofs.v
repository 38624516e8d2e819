From Verif Require Export TS_Spec.
Set Implicit Arguments.

Scheme exec_mut := Minimality for exec Sort Prop
  with execs_mut := Minimality for execs Sort Prop.
Combined Scheme exec_both from exec_mut, execs_mut.

Lemma both A (P Q : A -> Prop) : (forall b, P b /\ Q b) -> (forall b, P b) /\ (forall b, Q b).
Proof. intros H. split; intros b; apply H. Qed.

(** ** Exit functions: no discipline needed *)
Definition cbinv (s : st) : Prop := forall g, registered g s = ran g s + count_occ Nat.eq_dec (cbs s) g.

Lemma cbinv_ext s s' : cbs s' = cbs s -> (forall g, registered g s' = registered g s) -> (forall g, ran g s' = ran g s) -> cbinv s -> cbinv s'.
Proof. intros H1 H2 H3 H g. rewrite H1, H2, H3. apply H. Qed.
Lemma cbinv_ev e s : (forall g, is_registered g e = false /\ is_run g e = false) -> cbinv s -> cbinv (add_ev e s).
Proof. intros He. apply cbinv_ext; [reflexivity| |]; intros g; destruct (He g) as [H1 H2]; unfold registered, ran, count; simpl; [rewrite H1|rewrite H2]; reflexivity. Qed.
Lemma cbinv_ev_if b e s : (forall g, is_registered g e = false /\ is_run g e = false) -> cbinv s -> cbinv (add_ev_if b e s).
Proof. intros He H. destruct b; simpl; [now apply cbinv_ev|exact H]. Qed.
Lemma cbinv_found k i f v s s' : set_found k i f v s = Some s' -> cbinv s -> cbinv s'.
Proof.
  unfold set_found. destruct (f || _); [destruct (has_id i s); [|discriminate]|]; intros [= <-] H.
  - apply cbinv_ev_if; [auto|]. exact H.
  - exact H.
Qed.
Lemma cbinv_new k f v s : cbinv s -> cbinv (set_new k f v s).
Proof. intros H. unfold set_new. destruct (f || _); [|exact H]. apply cbinv_ev_if; auto. Qed.

Lemma cb_exec hasf allowed :
  (forall busy s o r, exec hasf allowed busy s o r -> forall s', r = Some s' -> cbinv s -> cbinv s') /\
  (forall busy s ops r, execs hasf allowed busy s ops r -> forall s', r = Some s' -> cbinv s -> cbinv s').
Proof.
  apply both; apply (exec_both (hasf := hasf) (allowed := allowed)
    (fun busy s o r => forall s', r = Some s' -> cbinv s -> cbinv s')
    (fun busy s ops r => forall s', r = Some s' -> cbinv s -> cbinv s')).
  - intros busy s g _ s' [= <-] H g'. specialize (H g'). unfold registered, ran, count in *. simpl.
    destruct (Nat.eqb_spec g g') as [->|Hne]; [destruct (Nat.eq_dec g' g') as [_|n]; [simpl; lia|congruence]|].
    destruct (Nat.eq_dec g g'); [congruence|]. exact H.
  - intros busy s k v _ _ s' [= <-] H. exact H.
  - intros busy s o k f v c _ _ _ s' [= <-] H. now apply cbinv_new.
  - intros busy s o k f v c n _ _ _ _ s' Hs H. eapply cbinv_found; [exact Hs|]. apply cbinv_ev_if; [destruct c; auto|exact H].
  - intros busy s o k f v n ops s1 _ _ _ _ _ IH s' Hs H. eapply cbinv_found; [exact Hs|]. apply IH; [reflexivity|]. apply cbinv_ev; auto.
  - intros; discriminate.
  - intros busy s s' [= <-] H. exact H.
  - intros busy s o s1 ops r _ IH1 _ IH2 s' Hr H. apply (IH2 s' Hr). now apply IH1.
  - intros; discriminate.
Qed.

Lemma cb_cb_loop hasf allowed s r : cb_loop hasf allowed s r -> forall s', r = Some s' -> cbinv s -> cbinv s' /\ cbs s' = [].
Proof.
  induction 1 as [s He|s g rest ops s1 r Hc Hx _ IH|s g rest ops Hc Hx]; intros s' Hr H; [injection Hr as <-; auto| |discriminate].
  apply IH; [exact Hr|]. apply (proj2 (cb_exec hasf allowed) _ _ _ _ Hx s1 eq_refl). intros g'. specialize (H g').
  unfold registered, ran, count in *. rewrite Hc in H. simpl in *.
  destruct (Nat.eqb_spec g g') as [->|Hne]; [destruct (Nat.eq_dec g' g') as [_|n]; [simpl; lia|congruence]|].
  destruct (Nat.eq_dec g g'); [congruence|]. exact H.
Qed.
Lemma cb_tss_loop hasf allowed s r : tss_loop hasf allowed s r -> forall s', r = Some s' -> cbinv s -> cbinv s' /\ tss s' = [].
Proof.
  induction 1 as [s He|s n r Hin Hc _ IH|s n ops s1 r Hin Hc Hx Hi _ IH|s n ops s1 Hin Hc Hx Hi|s n ops Hin Hc Hx]; intros s' Hr H; try discriminate.
  - injection Hr as <-. auto.
  - apply IH; [exact Hr|]. refine (@cbinv_ext (add_ev_if _ _ s) _ eq_refl (fun _ => eq_refl) (fun _ => eq_refl) _). apply cbinv_ev_if; auto.
  - apply IH; [exact Hr|]. change (cbinv s1). apply (proj2 (cb_exec hasf allowed) _ _ _ _ Hx s1 eq_refl). apply cbinv_ev; auto.
Qed.
Lemma cb_exit_loop hasf allowed s r : exit_loop hasf allowed s r -> forall s', r = Some s' -> cbinv s -> cbinv s' /\ tss s' = [] /\ cbs s' = [].
Proof.
  induction 1 as [s Ht Hc|s s1 s2 r _ Hcb Htl _ IH|s _ Hcb|s s1 _ Hcb Htl]; intros s' Hr H; try discriminate.
  - injection Hr as <-. auto.
  - apply (IH s' Hr). eapply cb_tss_loop; eauto. eapply cb_cb_loop; eauto.
Qed.
Lemma cb_thread hasf allowed ops s : thread hasf allowed ops (Some s) -> cbinv s /\ tss s = [] /\ cbs s = [].
Proof.
  intros H. inversion H as [ops' s1 r Hx He|]; subst. eapply cb_exit_loop; eauto.
  apply (proj2 (cb_exec hasf allowed) _ _ _ _ Hx s1 eq_refl). intros g. reflexivity.
Qed.

Lemma ran_exec hasf allowed :
  (forall busy s o r, exec hasf allowed busy s o r -> forall s' g, r = Some s' -> ran g s' = ran g s) /\
  (forall busy s ops r, execs hasf allowed busy s ops r -> forall s' g, r = Some s' -> ran g s' = ran g s).
Proof.
  assert (Hf : forall k i f v s s' g, set_found k i f v s = Some s' -> ran g s' = ran g s).
  { intros k i f v s s' g. unfold set_found. destruct (f || _); [destruct (has_id i s); [|discriminate]|]; intros [= <-]; [|reflexivity]. destruct (negb _); reflexivity. }
  apply both. apply (exec_both (hasf := hasf) (allowed := allowed)
    (fun busy s o r => forall s' g, r = Some s' -> ran g s' = ran g s)
    (fun busy s ops r => forall s' g, r = Some s' -> ran g s' = ran g s)).
  - intros busy s g _ s' g' [= <-]. reflexivity.
  - intros busy s k v _ _ s' g [= <-]. reflexivity.
  - intros busy s o k f v c _ _ _ s' g [= <-]. unfold set_new. destruct f, (v =? 0); reflexivity.
  - intros busy s o k f v c n _ _ _ _ s' g Hs. rewrite (Hf _ _ _ _ _ _ g Hs). destruct c, (negb _); reflexivity.
  - intros busy s o k f v n ops s1 _ _ _ _ _ IH s' g Hs. rewrite (Hf _ _ _ _ _ _ g Hs), (IH s1 g eq_refl). reflexivity.
  - intros; discriminate.
  - intros busy s s' g [= <-]. reflexivity.
  - intros busy s o s1 ops r _ IH1 _ IH2 s' g Hr. now rewrite (IH2 s' g Hr), (IH1 s1 g eq_refl).
  - intros; discriminate.
Qed.
Lemma no_run hasf allowed ops r s g : execs hasf allowed [] st0 ops r -> r = Some s -> ran g s = 0.
Proof. intros H E. now rewrite (proj2 (ran_exec hasf allowed) _ _ _ _ H s g E). Qed.

(** ** thread_specific_ptr, with the discipline *)
Section Tss.
  Variable hasf : nat -> bool.
  (** values installed that are kept elsewhere (none in this file's theorems; see TE_Proofs) *)
  Variable off : nat -> nat -> nat.
  Notation exec := (exec hasf disciplined).
  Notation execs := (execs hasf disciplined).

  Record wf (s : st) : Prop := {
    w_keys : NoDup (map n_key (tss s));
    w_ids : NoDup (map n_id (tss s));
    w_fresh : forall n, In n (tss s) -> n_id n < fresh s;
    w_func : forall n, In n (tss s) -> n_func n = hasf (n_key n) \/ (n_func n = false /\ n_val n = 0) }.

  Definition bal (k : nat) (s : st) : Prop :=
    hasf k = true -> forall v, v <> 0 -> installed k v s = cleaned k v s + released k v s + held k v s + off k v.
  Definition same (k : nat) (s s' : st) : Prop :=
    find_node k s' = find_node k s /\
    forall v, installed k v s' = installed k v s /\ cleaned k v s' = cleaned k v s /\ released k v s' = released k v s.

  Lemma same_refl k s : same k s s. Proof. split; auto. Qed.
  Lemma same_trans k s1 s2 s3 : same k s1 s2 -> same k s2 s3 -> same k s1 s3.
  Proof. intros [A B] [A' B']. split; [congruence|]. intros v. destruct (B v) as (?&?&?), (B' v) as (?&?&?). repeat split; congruence. Qed.
  Lemma same_bal k s s' : same k s s' -> bal k s -> bal k s'.
  Proof. intros [A B] H Hf v Hv. destruct (B v) as (-> & -> & ->). unfold held, get. rewrite A. exact (H Hf v Hv). Qed.

  (** finding nodes *)
  Lemma find_node_in k s n : find_node k s = Some n -> In n (tss s) /\ n_key n = k.
  Proof. intros H. apply find_some in H as [H1 H2]. apply Nat.eqb_eq in H2. auto. Qed.
  Lemma find_cons_neq k n l : n_key n <> k -> find (fun n => n_key n =? k) (n :: l) = find (fun n => n_key n =? k) l.
  Proof. intros H. simpl. apply Nat.eqb_neq in H. now rewrite H. Qed.
  Lemma find_erase_same k l : find (fun n => n_key n =? k) (filter (fun n => negb (n_key n =? k)) l) = None.
  Proof.
    induction l as [|n l IH]; simpl; auto. destruct (n_key n =? k) eqn:E; simpl; auto. now rewrite E.
  Qed.
  Lemma find_erase_other k k' l : k <> k' -> find (fun n => n_key n =? k') (filter (fun n => negb (n_key n =? k)) l) = find (fun n => n_key n =? k') l.
  Proof.
    intros Hne. induction l as [|n l IH]; simpl; auto. destruct (Nat.eqb_spec (n_key n) k) as [E|E]; simpl.
    - rewrite IH. destruct (Nat.eqb_spec (n_key n) k'); congruence.
    - now rewrite IH.
  Qed.
  Lemma key_inj l n n' : NoDup (map n_key l) -> In n l -> In n' l -> n_key n = n_key n' -> n = n'.
  Proof.
    induction l as [|a l IH]; simpl; [tauto|]. intros Hd. inversion Hd as [|? ? Hn Hd']. subst.
    intros [->|H1] [->|H2] E; auto; exfalso; apply Hn; [rewrite E|rewrite <- E]; now apply in_map.
  Qed.
  Lemma id_inj l n n' : NoDup (map n_id l) -> In n l -> In n' l -> n_id n = n_id n' -> n = n'.
  Proof.
    induction l as [|a l IH]; simpl; [tauto|]. intros Hd. inversion Hd as [|? ? Hn Hd']. subst.
    intros [->|H1] [->|H2] E; auto; exfalso; apply Hn; [rewrite E|rewrite <- E]; now apply in_map.
  Qed.
  Lemma find_write k i f v l : find (fun n => n_key n =? k) (map (fun n => if n_id n =? i then MkN (n_key n) (n_id n) f v else n) l) =
    option_map (fun n => if n_id n =? i then MkN (n_key n) (n_id n) f v else n) (find (fun n => n_key n =? k) l).
  Proof.
    induction l as [|n l IH]; simpl; auto. destruct (n_id n =? i) eqn:E; simpl; destruct (n_key n =? k) eqn:E'; simpl; rewrite ?E; auto.
  Qed.
  Lemma find_in k s n : wf s -> In n (tss s) -> n_key n = k -> find_node k s = Some n.
  Proof.
    intros Hw Hin E. unfold find_node. destruct (find _ (tss s)) as [n'|] eqn:Ef.
    - apply find_node_in in Ef as [H1 H2]. f_equal. eapply key_inj; eauto using w_keys. congruence.
    - exfalso. apply (find_none _ _ Ef) in Hin. rewrite E, Nat.eqb_refl in Hin. discriminate.
  Qed.

  (** well-formedness *)
  Lemma wf_log s e : wf s -> wf (add_ev e s). Proof. intros []. constructor; auto. Qed.
  Lemma wf_log_if b s e : wf s -> wf (add_ev_if b e s). Proof. intros H. destruct b; [now apply wf_log|exact H]. Qed.
  Lemma NoDup_filter_map A B (g : A -> B) p (l : list A) : NoDup (map g l) -> NoDup (map g (filter p l)).
  Proof.
    induction l as [|a l IH]; simpl; auto. intros Hd. inversion Hd as [|? ? Hn Hd']. subst. destruct (p a); simpl; auto. constructor; auto.
    intros Hin. apply Hn. apply in_map_iff in Hin as (b & E & Hb). apply filter_In in Hb as [Hb _]. rewrite <- E. now apply in_map.
  Qed.
  Lemma wf_filter p s : wf s -> wf (MkSt (filter p (tss s)) (cbs s) (fresh s) (log s)).
  Proof.
    intros [H1 H2 H3 H4]. constructor; simpl; [now apply NoDup_filter_map|now apply NoDup_filter_map| |]; intros n Hin; apply filter_In in Hin as [Hin _]; auto.
  Qed.
  Lemma wf_add k f v s : wf s -> find_node k s = None -> (f = hasf k \/ f = false /\ v = 0) -> wf (add_node k f v s).
  Proof.
    intros [H1 H2 H3 H4] Hf Hk. constructor; simpl.
    - constructor; auto. intros Hin. apply in_map_iff in Hin as (n & E & Hin). apply (find_none _ _ Hf) in Hin. rewrite E, Nat.eqb_refl in Hin. discriminate.
    - constructor; auto. intros Hin. apply in_map_iff in Hin as (n & E & Hin). apply H3 in Hin. lia.
    - intros n [<-|Hin]; simpl; [lia|]. apply H3 in Hin. lia.
    - intros n [<-|Hin]; simpl; auto.
  Qed.
  Lemma wf_write n f v s : wf s -> In n (tss s) -> (f = hasf (n_key n) \/ f = false /\ v = 0) -> wf (write_id (n_id n) f v s).
  Proof.
    intros [H1 H2 H3 H4] Hin Hk. constructor; simpl.
    - rewrite map_map. erewrite map_ext; [exact H1|]. intros a. simpl. destruct (n_id a =? n_id n); reflexivity.
    - rewrite map_map. erewrite map_ext; [exact H2|]. intros a. simpl. destruct (n_id a =? n_id n); reflexivity.
    - intros m Hm. apply in_map_iff in Hm as (a & <- & Ha). destruct (n_id a =? n_id n); simpl; auto.
    - intros m Hm. apply in_map_iff in Hm as (a & <- & Ha). destruct (Nat.eqb_spec (n_id a) (n_id n)) as [E|E]; simpl; auto.
      rewrite (id_inj _ _ _ H2 Ha Hin E). exact Hk.
  Qed.

  (** counting *)
  Lemma count_cons p e h : count p (e :: h) = (if p e then 1 else 0) + count p h.
  Proof. unfold count. simpl. destruct (p e); reflexivity. Qed.
  Definition keyed (k : nat) (e : event) : bool :=
    match e with EInstalled k' _ | ECleaned k' _ | EReleased k' _ => k' =? k | _ => false end.
  Lemma same_ev k e s : keyed k e = false -> same k s (add_ev e s).
  Proof.
    intros H. split; [reflexivity|]. intros v. unfold installed, cleaned, released. simpl. rewrite !count_cons.
    destruct e; simpl in *; rewrite ?H; simpl; auto.
  Qed.
  Lemma same_ev_if b k e s : keyed k e = false -> same k s (add_ev_if b e s).
  Proof. intros H. destruct b; [now apply same_ev|apply same_refl]. Qed.

  (** what set_found and set_new do to the other keys *)
  Lemma set_found_other k i f v s s' k' n : wf s -> In n (tss s) -> n_key n = k -> n_id n = i -> set_found k i f v s = Some s' -> k' <> k -> same k' s s'.
  Proof.
    intros Hw Hin Ek Ei H Hne. unfold set_found in H. destruct (f || _); [destruct (has_id i s); [|discriminate]|]; injection H as <-.
    - eapply same_trans; [|apply same_ev_if; simpl; apply Nat.eqb_neq; auto]. split; [|auto].
      unfold find_node, write_id. simpl. rewrite find_write. destruct (find (fun n0 => n_key n0 =? k') (tss s)) as [m|] eqn:Ef; simpl; auto.
      destruct (Nat.eqb_spec (n_id m) i) as [E|E]; auto. exfalso. apply find_node_in in Ef as [H1 H2].
      assert (m = n) by (eapply id_inj; eauto using w_ids; congruence). congruence.
    - split; [|auto]. unfold find_node, erase_key. simpl. apply find_erase_other. auto.
  Qed.
  Lemma set_found_ok k f v s n : wf s -> In n (tss s) -> n_key n = k -> (f = hasf k \/ f = false /\ v = 0) ->
    exists s', set_found k (n_id n) f v s = Some s' /\ wf s' /\ get k s' = v /\
      (forall w, cleaned k w s' = cleaned k w s /\ released k w s' = released k w s /\
                 installed k w s' = (if negb (v =? 0) && (v =? w) then 1 else 0) + installed k w s).
  Proof.
    intros Hw Hin Ek Hk. assert (Hid : has_id (n_id n) s = true) by (apply existsb_exists; exists n; split; auto; apply Nat.eqb_refl).
    unfold set_found. rewrite Hid. destruct (f || negb (v =? 0)) eqn:E.
    - eexists. split; [reflexivity|]. split; [apply wf_log_if, wf_write; auto; now rewrite Ek|]. split.
      + unfold get, find_node. destruct (negb (v =? 0)); simpl; rewrite find_write;
          pose proof (find_in _ Hw Hin Ek) as Hf; unfold find_node in Hf; rewrite Hf; simpl; now rewrite Nat.eqb_refl.
      + intros w. unfold cleaned, released, installed. destruct (negb (v =? 0)); simpl; rewrite ?count_cons; simpl; rewrite ?Nat.eqb_refl; auto.
    - apply orb_false_elim in E as [E1 E2]. eexists. split; [reflexivity|]. split; [apply wf_filter; auto|]. rewrite E2.
      apply negb_false_iff, Nat.eqb_eq in E2. subst v. split; [|auto]. unfold get, find_node, erase_key. simpl. now rewrite find_erase_same.
  Qed.

  Lemma set_args_key o s k f v c : set_args hasf o s = Some (k, f, v, c) -> key_of o = Some k /\ (f = hasf k \/ f = false /\ v = 0) /\
    match o with
    | OReset _ _ => c = true /\ get k s <> v
    | ORelease _ => c = false /\ v = 0
    | ODestroy _ => c = true /\ v = 0
    | AtExit _ => False end.
  Proof.
    destruct o; simpl; try discriminate.
    - destruct (Nat.eqb_spec (get k0 s) v0); [discriminate|]. intros [= <- <- <- <-]. auto.
    - intros [= <- <- <- <-]. auto.
    - intros [= <- <- <- <-]. auto.
  Qed.

  Definition good (busy : list nat) (s : st) (r : result) : Prop :=
    wf s -> exists s', r = Some s' /\ wf s' /\ (forall k, In k busy -> same k s s') /\ (forall k, ~ In k busy -> bal k s -> bal k s').

  Lemma not_busy k busy o : disciplined busy o = true -> key_of o = Some k -> ~ In k busy.
  Proof.
    unfold disciplined. intros H E Hin. rewrite E in H. apply negb_true_iff in H. assert (existsb (Nat.eqb k) busy = true); [|congruence].
    apply existsb_exists. exists k. split; auto. apply Nat.eqb_refl.
  Qed.

  Lemma held_val k v s n : find_node k s = Some n -> held k v s = if n_val n =? v then 1 else 0.
  Proof. intros H. unfold held, get. now rewrite H. Qed.

  Lemma good_exec :
    (forall busy s o r, exec busy s o r -> good busy s r) /\
    (forall busy s ops r, execs busy s ops r -> good busy s r).
  Proof.
    apply both; apply (exec_both (hasf := hasf) (allowed := disciplined) (fun busy s o r => good busy s r) (fun busy s ops r => good busy s r)).
    - intros busy s g _ Hw. eexists. split; [reflexivity|]. split; [destruct Hw; constructor; auto|].
      assert (Hs : forall k, same k s (MkSt (tss s) (g :: cbs s) (fresh s) (ERegistered g :: log s))) by (intros k; split; auto).
      split; [auto|]. intros k _. apply same_bal. auto.
    - intros busy s k v _ _ Hw. exists s. split; [reflexivity|]. split; [exact Hw|]. split; [intros; apply same_refl|auto].
    - intros busy s o k f v c Ha Hs Hf Hw. destruct (set_args_key _ _ Hs) as (Hk & Hfk & Ho). pose proof (not_busy _ _ Ha Hk) as Hnb.
      eexists. split; [reflexivity|].
      assert (Hgen : forall k', k' <> k -> same k' s (set_new k f v s)).
      { intros k' Hne. unfold set_new. destruct (f || _); [|apply same_refl]. eapply same_trans; [|apply same_ev_if; simpl; apply Nat.eqb_neq; auto].
        split; [|auto]. unfold find_node, add_node. simpl. apply Nat.eqb_neq in Hne. rewrite Nat.eqb_sym, Hne. reflexivity. }
      split; [unfold set_new; destruct (f || _); [apply wf_log_if, wf_add; auto|exact Hw]|].
      split; [intros k' Hin; apply Hgen; congruence|]. intros k' _ Hb. destruct (Nat.eq_dec k' k) as [->|Hne]; [|exact (same_bal (Hgen _ Hne) Hb)].
      intros Hhf w Hw0. specialize (Hb Hhf w Hw0). unfold held, get in *. rewrite Hf in Hb. destruct w as [|w]; [congruence|]. cbn [Nat.eqb] in Hb.
      unfold set_new. destruct (f || negb (v =? 0)) eqn:E.
      + unfold installed, cleaned, released in *. destruct (negb (v =? 0)) eqn:Ev; cbn [add_ev_if add_ev log add_node tss find_node find n_key]; rewrite Nat.eqb_refl, ?count_cons; cbn [is_installed is_cleaned is_released n_val]; rewrite ?Nat.eqb_refl; cbn [andb].
        * destruct (v =? S w); lia.
        * apply negb_false_iff, Nat.eqb_eq in Ev. subst v. cbn [Nat.eqb]. lia.
      + rewrite Hf. cbn [Nat.eqb]. lia.
    - intros busy s o k f v c n Ha Hs Hf Hc Hw. destruct (set_args_key _ _ Hs) as (Hk & Hfk & Ho). pose proof (not_busy _ _ Ha Hk) as Hnb.
      destruct (find_node_in _ _ Hf) as [Hin Ek]. set (ev := if c then EDropped k (n_val n) else EReleased k (n_val n)).
      set (s1 := add_ev_if (negb (n_val n =? 0)) ev s).
      assert (Hw1 : wf s1) by (apply wf_log_if; auto). assert (Ht1 : tss s1 = tss s) by (unfold s1, add_ev_if; destruct (negb _); reflexivity).
      assert (Hin1 : In n (tss s1)) by (rewrite Ht1; auto).
      destruct (@set_found_ok k f v s1 n Hw1 Hin1 Ek Hfk) as (s' & Es & Hw' & Hg & Hcnt). exists s'. split; [exact Es|]. split; [exact Hw'|].
      assert (Hoth : forall k', k' <> k -> same k' s s').
      { intros k' Hne. eapply same_trans; [|exact (@set_found_other k (n_id n) f v s1 s' k' n Hw1 Hin1 Ek eq_refl Es Hne)].
        apply same_ev_if. unfold ev. destruct c; simpl; auto. apply Nat.eqb_neq. auto. }
      split; [intros k' Hin'; apply Hoth; congruence|]. intros k' _ Hb. destruct (Nat.eq_dec k' k) as [->|Hne]; [|exact (same_bal (Hoth _ Hne) Hb)].
      intros Hhf w Hw0. specialize (Hb Hhf w Hw0). rewrite (held_val _ _ _ Hf) in Hb. destruct (Hcnt w) as (C1 & C2 & C3). rewrite C1, C2, C3.
      unfold held. rewrite Hg.
      assert (Hfn : n_func n = true \/ n_val n = 0) by (destruct (w_func Hw _ Hin) as [E|[E E']]; auto; rewrite Ek, Hhf in E; auto).
      assert (Hval : c = true -> n_val n = 0).
      { intros ->. destruct Hfn as [E|E]; auto. rewrite E in Hc. simpl in Hc. apply negb_false_iff, Nat.eqb_eq in Hc. exact Hc. }
      unfold s1, ev, installed, cleaned, released in *. destruct c.
      + rewrite (Hval eq_refl) in *. cbn [Nat.eqb negb add_ev_if] in *. destruct w as [|w]; [congruence|]. cbn [Nat.eqb] in Hb.
        destruct v as [|v]; cbn [Nat.eqb negb andb]; [lia|]. destruct (v =? w); lia.
      + assert (Hv0 : v = 0) by (destruct o; try tauto; destruct Ho; congruence). rewrite Hv0. destruct w as [|w]; [congruence|]. cbn [Nat.eqb negb andb].
        destruct (n_val n) as [|m] eqn:Em; cbn [Nat.eqb negb add_ev_if] in *; [lia|].
        cbn [add_ev log]. rewrite !count_cons. cbn [is_installed is_cleaned is_released]. rewrite Nat.eqb_refl. cbn [andb Nat.eqb]. destruct (m =? w); lia.
    - intros busy s o k f v n ops s1 Ha Hs Hf Hc Hx IH Hw. destruct (set_args_key _ _ Hs) as (Hk & Hfk & Ho). pose proof (not_busy _ _ Ha Hk) as Hnb.
      destruct (find_node_in _ _ Hf) as [Hin Ek].
      destruct (IH (wf_log (ECleaned k (n_val n)) Hw)) as (s1' & E1 & Hw1 & Hsame & Hbal). injection E1 as <-.
      destruct (Hsame k (or_introl eq_refl)) as [Hf1 Hc1].
      assert (Hfs1 : find_node k s1 = Some n) by (rewrite Hf1; exact Hf).
      destruct (find_node_in _ _ Hfs1) as [Hin1 _].
      destruct (@set_found_ok k f v s1 n Hw1 Hin1 Ek Hfk) as (s' & Es & Hw' & Hg & Hcnt). exists s'. split; [exact Es|]. split; [exact Hw'|].
      assert (Hoth : forall k', k' <> k -> same k' s1 s').
      { intros k' Hne. exact (@set_found_other k (n_id n) f v s1 s' k' n Hw1 Hin1 Ek eq_refl Es Hne). }
      assert (Hev : forall k', k' <> k -> same k' s (add_ev (ECleaned k (n_val n)) s)) by (intros; apply same_ev; simpl; apply Nat.eqb_neq; auto).
      split.
      + intros k' Hin'. assert (Hne : k' <> k) by congruence. eapply same_trans; [apply Hev; auto|]. eapply same_trans; [apply Hsame; now right|]. apply Hoth; auto.
      + intros k' Hnb' Hb. destruct (Nat.eq_dec k' k) as [->|Hne].
        * intros Hhf w Hw0. specialize (Hb Hhf w Hw0). rewrite (held_val _ _ _ Hf) in Hb. destruct (Hcnt w) as (C1 & C2 & C3). rewrite C1, C2, C3.
          destruct (Hc1 w) as (D1 & D2 & D3). rewrite D1, D2, D3. unfold held. rewrite Hg.
          unfold installed, cleaned, released in *. cbn [add_ev log]. rewrite !count_cons. cbn [is_installed is_cleaned is_released]. rewrite Nat.eqb_refl. cbn [andb].
          apply andb_prop in Hc as [_ Hv]. apply negb_true_iff, Nat.eqb_neq in Hv.
          assert (Hvv : n_val n <> v).
          { unfold get in Ho. rewrite Hf in Ho. destruct o; try tauto; destruct Ho; subst; try tauto; congruence. }
          destruct w as [|w]; [congruence|]. revert Hb. destruct (Nat.eqb_spec (n_val n) (S w)) as [E|E]; intros Hb; destruct v as [|v]; cbn [Nat.eqb negb andb] in *; try lia;
            destruct (Nat.eqb_spec v w); try lia; subst; congruence.
        * apply (same_bal (Hoth _ Hne)). apply Hbal; [intros [->|H]; auto|]. exact (same_bal (Hev _ Hne) Hb).
    - intros busy s o k f v n ops _ _ _ _ _ IH Hw. destruct (IH (wf_log _ Hw)) as (s' & E & _). discriminate.
    - intros busy s Hw. exists s. split; [reflexivity|]. split; [exact Hw|]. split; [intros; apply same_refl|auto].
    - intros busy s o s1 ops r _ IH1 _ IH2 Hw. destruct (IH1 Hw) as (s1' & E1 & Hw1 & Hs1 & Hb1). injection E1 as <-.
      destruct (IH2 Hw1) as (s' & -> & Hw' & Hs' & Hb'). exists s'. split; [reflexivity|]. split; [exact Hw'|].
      split; [intros k Hin; eapply same_trans; eauto|auto].
    - intros busy s o ops _ IH Hw. destruct (IH Hw) as (s' & E & _). discriminate.
  Qed.

  Definition inv (s : st) : Prop := wf s /\ forall k, bal k s.

  Lemma inv_execs busy s ops r : execs busy s ops r -> busy = [] -> inv s -> exists s', r = Some s' /\ inv s'.
  Proof.
    intros Hx -> [Hw Hb]. destruct (proj2 good_exec _ _ _ _ Hx Hw) as (s' & E & Hw' & _ & Hb'). exists s'. split; [exact E|]. split; [exact Hw'|]. intros k. apply Hb'; auto.
  Qed.

  Lemma inv_cb_loop s r : cb_loop hasf disciplined s r -> inv s -> exists s', r = Some s' /\ inv s'.
  Proof.
    induction 1 as [s He|s g rest ops s1 r Hc Hx _ IH|s g rest ops Hc Hx]; intros H; [eauto| |].
    - assert (H0 : inv (MkSt (tss s) rest (fresh s) (ERan g :: log s))).
      { destruct H as [Hw Hb]. split; [destruct Hw; constructor; auto|]. intros k. eapply same_bal; [|apply Hb]. split; auto. }
      destruct (inv_execs Hx eq_refl H0) as (s' & E & H1). injection E as <-. auto.
    - assert (H0 : inv (MkSt (tss s) rest (fresh s) (ERan g :: log s))).
      { destruct H as [Hw Hb]. split; [destruct Hw; constructor; auto|]. intros k. eapply same_bal; [|apply Hb]. split; auto. }
      destruct (inv_execs Hx eq_refl H0) as (s' & E & H1). discriminate.
  Qed.

  Lemma erase_id_find n s k : wf s -> In n (tss s) -> find_node k (erase_id (n_id n) s) = if n_key n =? k then None else find_node k s.
  Proof.
    intros Hw Hin. assert (E : filter (fun m => negb (n_id m =? n_id n)) (tss s) = filter (fun m => negb (n_key m =? n_key n)) (tss s)).
    { assert (G : forall l, (forall m, In m l -> In m (tss s)) -> filter (fun m => negb (n_id m =? n_id n)) l = filter (fun m => negb (n_key m =? n_key n)) l).
      { induction l as [|m l IH]; intros Hl; simpl; auto. rewrite IH by (intros; apply Hl; now right).
        assert (Hm : In m (tss s)) by (apply Hl; now left).
        destruct (Nat.eqb_spec (n_id m) (n_id n)) as [E1|E1], (Nat.eqb_spec (n_key m) (n_key n)) as [E2|E2]; simpl; auto; exfalso.
        - apply E2. f_equal. eapply id_inj; eauto using w_ids.
        - apply E1. f_equal. eapply key_inj; eauto using w_keys. }
      apply G. auto. }
    unfold find_node, erase_id. simpl. rewrite E. destruct (Nat.eqb_spec (n_key n) k) as [<-|Hne]; [apply find_erase_same|now apply find_erase_other].
  Qed.

  Lemma inv_tss_loop s r : tss_loop hasf disciplined s r -> inv s -> exists s', r = Some s' /\ inv s'.
  Proof.
    induction 1 as [s He|s n r Hin Hc _ IH|s n ops s1 r Hin Hc Hx Hi _ IH|s n ops s1 Hin Hc Hx Hi|s n ops Hin Hc Hx]; intros [Hw Hb].
    - exists s. split; [reflexivity|]. split; auto.
    - apply IH. set (s1 := add_ev_if _ _ s). assert (Hw1 : wf s1) by (apply wf_log_if; auto).
      assert (Ht1 : tss s1 = tss s) by (unfold s1, add_ev_if; destruct (negb _); reflexivity).
      assert (Hin1 : In n (tss s1)) by (rewrite Ht1; auto). split; [apply wf_filter; auto|]. intros k.
      assert (Hb1 : bal k s1) by (eapply same_bal; [apply same_ev_if; reflexivity|apply Hb]).
      intros Hhf v Hv. specialize (Hb1 Hhf v Hv). unfold held, get in *. rewrite (erase_id_find _ k Hw1 Hin1).
      change (installed k v (erase_id (n_id n) s1)) with (installed k v s1). change (cleaned k v (erase_id (n_id n) s1)) with (cleaned k v s1).
      change (released k v (erase_id (n_id n) s1)) with (released k v s1).
      destruct (Nat.eqb_spec (n_key n) k) as [E|E]; [|exact Hb1]. rewrite (find_in _ Hw1 Hin1 E) in Hb1.
      assert (Hv0 : n_val n = 0).
      { destruct (w_func Hw _ Hin) as [E'|[_ E']]; auto. rewrite E, Hhf in E'. rewrite E' in Hc. simpl in Hc. apply negb_false_iff, Nat.eqb_eq in Hc. exact Hc. }
      rewrite Hv0 in Hb1. exact Hb1.
    - destruct (proj2 good_exec _ _ _ _ Hx (wf_log _ Hw)) as (s1' & E1 & Hw1 & Hsame & Hbal). injection E1 as <-.
      destruct (Hsame (n_key n) (or_introl eq_refl)) as [Hf1 Hc1].
      assert (Hfs : find_node (n_key n) s = Some n) by (apply find_in; auto).
      assert (Hfs1 : find_node (n_key n) s1 = Some n) by (rewrite Hf1; exact Hfs).
      destruct (find_node_in _ _ Hfs1) as [Hin1 _].
      apply IH. split; [apply wf_filter; auto|]. intros k Hhf v Hv. unfold held, get. rewrite (erase_id_find _ k Hw1 Hin1).
      change (installed k v (erase_id (n_id n) s1)) with (installed k v s1). change (cleaned k v (erase_id (n_id n) s1)) with (cleaned k v s1).
      change (released k v (erase_id (n_id n) s1)) with (released k v s1).
      destruct (Nat.eqb_spec (n_key n) k) as [E|E].
      + subst k. destruct (Hc1 v) as (D1 & D2 & D3). rewrite D1, D2, D3. specialize (Hb (n_key n) Hhf v Hv). rewrite (held_val _ _ _ Hfs) in Hb.
        unfold installed, cleaned, released in *. cbn [add_ev log]. rewrite !count_cons. cbn [is_installed is_cleaned is_released]. rewrite Nat.eqb_refl. cbn [andb].
        destruct v as [|v]; [congruence|]. cbn [Nat.eqb]. destruct (n_val n =? S v); lia.
      + assert (Hb1 : bal k s1).
        { apply Hbal; [intros [H|[]]; auto|]. eapply same_bal; [apply same_ev; simpl; apply Nat.eqb_neq; auto|apply Hb]. }
        exact (Hb1 Hhf v Hv).
    - exfalso. destruct (proj2 good_exec _ _ _ _ Hx (wf_log _ Hw)) as (s1' & E1 & Hw1 & Hsame & Hbal). injection E1 as <-.
      destruct (Hsame (n_key n) (or_introl eq_refl)) as [Hf1 Hc1].
      assert (Hfs1 : find_node (n_key n) s1 = Some n) by (rewrite Hf1; exact (find_in n Hw Hin eq_refl)).
      destruct (find_node_in _ _ Hfs1) as [Hin1 _].
      assert (has_id (n_id n) s1 = true); [|congruence]. apply existsb_exists. exists n. split; auto. apply Nat.eqb_refl.
    - destruct (proj2 good_exec _ _ _ _ Hx (wf_log _ Hw)) as (s1' & E1 & _). discriminate.
  Qed.

  Lemma inv_exit_loop s r : exit_loop hasf disciplined s r -> inv s -> exists s', r = Some s' /\ inv s'.
  Proof.
    induction 1 as [s Ht Hc|s s1 s2 r _ Hcb Htl _ IH|s _ Hcb|s s1 _ Hcb Htl]; intros H.
    - eauto.
    - destruct (inv_cb_loop Hcb H) as (a & E & H1). injection E as <-. destruct (inv_tss_loop Htl H1) as (b & E & H2). injection E as <-. auto.
    - destruct (inv_cb_loop Hcb H) as (a & E & H1). discriminate.
    - destruct (inv_cb_loop Hcb H) as (a & E & H1). injection E as <-. destruct (inv_tss_loop Htl H1) as (b & E & H2). discriminate.
  Qed.

End Tss.

Lemma inv0 hasf : inv hasf (fun _ _ => 0) st0.
Proof. split; [constructor; simpl; [constructor|constructor|intros n []|intros n []]|]. intros k _ v Hv. unfold held, get. simpl. destruct v; [congruence|reflexivity]. Qed.

Lemma inv_thread hasf ops r : thread hasf disciplined ops r -> exists s, r = Some s /\ inv hasf (fun _ _ => 0) s.
Proof.
  intros H. inversion H as [ops' s1 r' Hx He|ops' Hx]; subst.
  - destruct (inv_execs Hx eq_refl (inv0 hasf)) as (s' & E & H1). injection E as <-. exact (inv_exit_loop He H1).
  - destruct (inv_execs Hx eq_refl (inv0 hasf)) as (s' & E & H1). discriminate.
Qed.

(** the rules in a form convenient for building executions *)
Lemma x_cleanup' hasf allowed busy s o k f v n ops s1 r : allowed busy o = true -> set_args hasf o s = Some (k, f, v, true) -> find_node k s = Some n ->
  n_func n && negb (n_val n =? 0) = true -> execs hasf allowed (k :: busy) (add_ev (ECleaned k (n_val n)) s) ops (Some s1) ->
  set_found k (n_id n) f v s1 = r -> exec hasf allowed busy s o r.
Proof. intros H1 H2 H3 H4 H5 <-. eapply x_cleanup; eauto. Qed.
Lemma x_nocleanup' hasf allowed busy s o k f v c n r : allowed busy o = true -> set_args hasf o s = Some (k, f, v, c) -> find_node k s = Some n ->
  c && n_func n && negb (n_val n =? 0) = false ->
  set_found k (n_id n) f v (add_ev_if (negb (n_val n =? 0)) (if c then EDropped k (n_val n) else EReleased k (n_val n)) s) = r -> exec hasf allowed busy s o r.
Proof. intros H1 H2 H3 H4 <-. eapply x_nocleanup; eauto. Qed.
