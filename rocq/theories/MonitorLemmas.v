(** * Generic facts about the monitor machine of Monitor.v *)

From Verif Require Export Monitor.
Set Implicit Arguments.

(** ** Lists *)

Lemma upd_length {A} (l : list A) i x : length (upd l i x) = length l.
Proof. revert i; induction l as [|y l IH]; intros [|i]; simpl; auto. Qed.

Lemma nth_error_upd_same {A} (l : list A) i x :
  i < length l -> nth_error (upd l i x) i = Some x.
Proof.
  revert i; induction l as [|y l IH]; intros [|i] H; simpl in *; try lia; auto.
  apply IH; lia.
Qed.

Lemma nth_error_upd_other {A} (l : list A) i j x :
  i <> j -> nth_error (upd l i x) j = nth_error l j.
Proof.
  revert i j; induction l as [|y l IH]; intros [|i] [|j] H; simpl; auto; try lia.
Qed.

Lemma nth_error_lt {A} (l : list A) i x : nth_error l i = Some x -> i < length l.
Proof. intros H; apply nth_error_Some; congruence. Qed.

Lemma upd_same {A} (l : list A) i x : nth_error l i = Some x -> upd l i x = l.
Proof.
  revert i; induction l as [|y l IH]; intros [|i] H; simpl in *; try discriminate.
  - congruence.
  - f_equal; auto.
Qed.

Lemma upd_upd {A} (l : list A) i x y : upd (upd l i x) i y = upd l i y.
Proof. revert i; induction l as [|z l IH]; intros [|i]; simpl; auto; f_equal; auto. Qed.

Lemma nth_error_upd {A} (l : list A) i j x y :
  nth_error (upd l i x) j = Some y ->
  (i = j /\ y = x /\ i < length l) \/ (i <> j /\ nth_error l j = Some y).
Proof.
  intros H. destruct (Nat.eq_dec i j) as [->|Hne].
  - left. assert (j < length l) by (apply nth_error_lt in H; rewrite upd_length in H; auto).
    rewrite nth_error_upd_same in H by auto. split; [auto|split; [congruence|auto]].
  - right. rewrite nth_error_upd_other in H by auto. auto.
Qed.

Lemma Forall_upd {A} (Q : A -> Prop) l i x : Forall Q l -> Q x -> Forall Q (upd l i x).
Proof.
  intros Hl Hx; revert i; induction Hl as [|y l Hy Hl IH]; intros [|i]; simpl; auto.
Qed.

Lemma Forall_nth_error {A} (Q : A -> Prop) l i x :
  Forall Q l -> nth_error l i = Some x -> Q x.
Proof. intros Hl H; rewrite Forall_forall in Hl; apply Hl; eapply nth_error_In; eauto. Qed.

(** ** Weighted sums over lists *)

Fixpoint sumw {A} (w : A -> nat) (l : list A) : nat :=
  match l with [] => 0 | x :: l' => w x + sumw w l' end.

Lemma sumw_upd {A} (w : A -> nat) l i x y :
  nth_error l i = Some x -> sumw w (upd l i y) + w x = sumw w l + w y.
Proof.
  revert i; induction l as [|z l IH]; intros [|i] H; simpl in *; try discriminate.
  - injection H as ->. lia.
  - specialize (IH _ H). lia.
Qed.

Lemma sumw_upd_nat {A} (w : A -> nat) l i x y :
  nth_error l i = Some x -> sumw w (upd l i y) = sumw w l + w y - w x.
Proof. intros H; pose proof (sumw_upd w l i y H); lia. Qed.

Lemma sumw_ge {A} (w : A -> nat) l i x : nth_error l i = Some x -> w x <= sumw w l.
Proof.
  revert i; induction l as [|z l IH]; intros [|i] H; simpl in *; try discriminate.
  - injection H as ->. lia.
  - specialize (IH _ H). lia.
Qed.

Lemma sumw_ge2 {A} (w : A -> nat) l i j x y :
  i <> j -> nth_error l i = Some x -> nth_error l j = Some y -> w x + w y <= sumw w l.
Proof.
  revert i j; induction l as [|z l IH]; intros [|i] [|j] Hne H1 H2; simpl in *;
    try discriminate; try lia.
  - injection H1 as ->. apply sumw_ge with (w:=w) in H2. lia.
  - injection H2 as ->. apply sumw_ge with (w:=w) in H1. lia.
  - assert (Hij : i <> j) by lia. specialize (IH _ _ Hij H1 H2). lia.
Qed.

Lemma sumw_map {A B} (w : B -> nat) (f : A -> B) l : sumw w (map f l) = sumw (fun x => w (f x)) l.
Proof. induction l; simpl; auto. Qed.

Lemma sumw_ext {A} (w w' : A -> nat) l :
  (forall x, In x l -> w x = w' x) -> sumw w l = sumw w' l.
Proof.
  induction l as [|x l IH]; intros H; simpl; auto.
  rewrite (H x) by (left; auto). rewrite IH; auto. intros y Hy; apply H; right; auto.
Qed.

Lemma sumw_plus {A} (w w' : A -> nat) l : sumw (fun x => w x + w' x) l = sumw w l + sumw w' l.
Proof. induction l; simpl; lia. Qed.

Lemma sumw_le {A} (w w' : A -> nat) l :
  (forall x, In x l -> w x <= w' x) -> sumw w l <= sumw w' l.
Proof.
  induction l as [|x l IH]; intros H; simpl; auto.
  assert (w x <= w' x) by (apply H; left; auto).
  assert (sumw w l <= sumw w' l) by (apply IH; intros y Hy; apply H; right; auto). lia.
Qed.

Lemma sumw_zero {A} (w : A -> nat) l : (forall x, In x l -> w x = 0) -> sumw w l = 0.
Proof.
  induction l as [|x l IH]; intros H; simpl; auto.
  rewrite (H x) by (left; auto). rewrite IH; auto. intros y Hy; apply H; right; auto.
Qed.

Lemma sumw_zero_inv {A} (w : A -> nat) l x : sumw w l = 0 -> In x l -> w x = 0.
Proof.
  induction l as [|y l IH]; intros H Hin; simpl in *; [tauto|].
  destruct Hin as [->|Hin]; [lia|apply IH; auto; lia].
Qed.

Lemma sumw_repeat {A} (w : A -> nat) x n : sumw w (repeat x n) = n * w x.
Proof. induction n; simpl; auto. Qed.

Lemma sumw_pos {A} (w : A -> nat) l : 0 < sumw w l -> exists i x, nth_error l i = Some x /\ 0 < w x.
Proof.
  induction l as [|y l IH]; simpl; intros H; [lia|].
  destruct (w y) eqn:Hy.
  - destruct IH as (i & x & H1 & H2); [lia|]. exists (S i), x; auto.
  - exists 0, y; simpl; split; [auto|lia].
Qed.

(** ** Deliveries *)

Section Machine.
  Variables S K Op R C L E : Type.
  Variable P : prog S K Op R C L E.
  Notation tst := (tstat K Op C L).
  Notation conf := (cfg S K Op R C L).

  Definition is_asleep (x : tst) : bool :=
    match x with Asleep _ _ _ _ => true | _ => false end.

  Lemma asleep_on_is_asleep c x : asleep_on P c x = true -> is_asleep x = true.
  Proof. destruct x; simpl; auto. Qed.

  Lemma wake_if_not_asleep c x : is_asleep x = false -> wake_if P c x = x.
  Proof. destruct x; simpl; auto; discriminate. Qed.

  (** Every thread's status is unchanged or it was asleep and is now woken. *)
  Definition woken_rel (l l' : list tst) : Prop :=
    length l' = length l /\
    forall i x, nth_error l i = Some x ->
      nth_error l' i = Some x \/ (is_asleep x = true /\ nth_error l' i = Some (wake x)).

  Lemma woken_refl l : woken_rel l l.
  Proof. split; auto. Qed.

  Lemma wake_wake (x : tst) : is_asleep (wake x) = false.
  Proof. destruct x; reflexivity. Qed.

  Lemma woken_trans l1 l2 l3 : woken_rel l1 l2 -> woken_rel l2 l3 -> woken_rel l1 l3.
  Proof.
    intros [H1 H2] [H3 H4]; split; [congruence|].
    intros i x Hx. destruct (H2 _ _ Hx) as [Hy|[Ha Hy]].
    - apply H4; auto.
    - right; split; auto. destruct (H4 _ _ Hy) as [Hz|[Hb Hz]]; auto.
      rewrite wake_wake in Hb. discriminate.
  Qed.

  Lemma deliver_woken n p l l' : deliver P n p l = Some l' -> woken_rel l l'.
  Proof.
    destruct n as [c|c]; simpl.
    - destruct (existsb (asleep_on P c) l) eqn:Hex; [|injection 1 as <-; apply woken_refl].
      destruct (nth_error l p) as [x|] eqn:Hp; [|discriminate].
      destruct (asleep_on P c x) eqn:Hx; [|discriminate].
      injection 1 as <-. split; [apply upd_length|].
      intros i y Hy. destruct (Nat.eq_dec p i) as [->|Hne].
      + right. assert (y = x) by congruence; subst y. split; [eapply asleep_on_is_asleep; eauto|].
        apply nth_error_upd_same. eapply nth_error_lt; eauto.
      + left. rewrite nth_error_upd_other; auto.
    - injection 1 as <-. split; [apply map_length|].
      intros i x Hx. rewrite nth_error_map, Hx. simpl. unfold wake_if.
      destruct (asleep_on P c x) eqn:Ha; auto. right; split; auto.
      eapply asleep_on_is_asleep; eauto.
  Qed.

  Lemma deliver_all_woken ns ps l l' : deliver_all P ns ps l = Some l' -> woken_rel l l'.
  Proof.
    revert ps l; induction ns as [|n ns IH]; intros ps l; simpl.
    - injection 1 as <-. apply woken_refl.
    - destruct (deliver P n (hd 0 ps) l) as [l1|] eqn:H1; [|discriminate].
      intros H2. eapply woken_trans; [eapply deliver_woken; eauto|eapply IH; eauto].
  Qed.

  Lemma woken_length l l' : woken_rel l l' -> length l' = length l.
  Proof. intros [H _]; auto. Qed.

  Lemma woken_not_asleep l l' i x :
    woken_rel l l' -> nth_error l i = Some x -> is_asleep x = false -> nth_error l' i = Some x.
  Proof.
    intros [_ H] Hx Hn. destruct (H _ _ Hx) as [|[Ha _]]; auto. congruence.
  Qed.

  (** A status in the list after the delivery comes from one before. *)
  Lemma woken_inv l l' i y :
    woken_rel l l' -> nth_error l' i = Some y ->
    exists x, nth_error l i = Some x /\ (y = x \/ (is_asleep x = true /\ y = wake x)).
  Proof.
    intros [Hlen H] Hy.
    destruct (nth_error l i) as [x|] eqn:Hx.
    - exists x; split; auto. destruct (H _ _ Hx) as [Hz|[Ha Hz]].
      + left; congruence.
      + right; split; auto; congruence.
    - apply nth_error_None in Hx. apply nth_error_lt in Hy. lia.
  Qed.

  Lemma woken_Forall (Q : tst -> Prop) l l' :
    woken_rel l l' -> (forall x, is_asleep x = true -> Q x -> Q (wake x)) ->
    Forall Q l -> Forall Q l'.
  Proof.
    intros Hw Hq Hl. apply Forall_forall. intros y Hin.
    apply In_nth_error in Hin as [i Hi].
    destruct (woken_inv _ Hw Hi) as (x & Hx & [->|[Ha ->]]).
    - eapply Forall_nth_error; eauto.
    - apply Hq; auto. eapply Forall_nth_error; eauto.
  Qed.

  (** Weights that do not distinguish a sleeper from a woken thread are kept. *)
  Lemma woken_sumw_eq (w : tst -> nat) l l' :
    woken_rel l l' -> (forall x, is_asleep x = true -> w (wake x) = w x) ->
    sumw w l' = sumw w l.
  Proof.
    intros [Hlen H] Hw. revert l' Hlen H.
    induction l as [|x l IH]; intros [|y l'] Hlen H; simpl in *; try discriminate; auto.
    assert (w y = w x).
    { destruct (H 0 x eq_refl) as [H0|[Ha H0]]; simpl in H0; injection H0 as ->; auto. }
    rewrite (IH l'); [lia|lia|]. intros i z Hz. apply (H (Datatypes.S i) z Hz).
  Qed.

  (** Weights that do not increase (decrease) when a sleeper wakes. *)
  Lemma woken_sumw_le (w : tst -> nat) l l' :
    woken_rel l l' -> (forall x, is_asleep x = true -> w (wake x) <= w x) ->
    sumw w l' <= sumw w l.
  Proof.
    intros [Hlen H] Hw. revert l' Hlen H.
    induction l as [|x l IH]; intros [|y l'] Hlen H; simpl in *; try discriminate; auto.
    assert (w y <= w x).
    { destruct (H 0 x eq_refl) as [H0|[Ha H0]]; simpl in H0; injection H0 as ->; auto. }
    assert (sumw w l' <= sumw w l);
      [apply IH; [lia|intros i z Hz; apply (H (Datatypes.S i) z Hz)]|lia].
  Qed.

  Lemma deliver_one_sumw (w : tst -> nat) c p l l' :
    deliver P (NOne c) p l = Some l' ->
    (l' = l /\ forall x, In x l -> asleep_on P c x = false) \/
    (exists x, nth_error l p = Some x /\ asleep_on P c x = true /\ l' = upd l p (wake x) /\
       sumw w l' + w x = sumw w l + w (wake x)).
  Proof.
    simpl. destruct (existsb (asleep_on P c) l) eqn:Hex.
    - destruct (nth_error l p) as [x|] eqn:Hp; [|discriminate].
      destruct (asleep_on P c x) eqn:Hx; [|discriminate].
      injection 1 as <-. right. exists x; repeat split; auto. apply sumw_upd; auto.
    - injection 1 as <-. left; split; auto. intros x Hin.
      destruct (asleep_on P c x) eqn:Hx; auto.
      assert (existsb (asleep_on P c) l = true) by (apply existsb_exists; exists x; auto).
      congruence.
  Qed.

  Lemma deliver_all_sumw (w : tst -> nat) c p l l' :
    deliver P (NAll c) p l = Some l' -> sumw w l' = sumw (fun x => w (wake_if P c x)) l.
  Proof. simpl. injection 1 as <-. apply sumw_map. Qed.

  (** ** Steps *)

  (** What a step can be. *)
  Inductive stepcase (c c' : conf) : Prop :=
  | SCall t l op :
      nth_error (thr c) t = Some (Idle K Op C l) -> pre P l op = true ->
      c' = MkCfg (sh c) (upd (thr c) t (Ready C l op (start P op))) (ECall R t op :: hist c) ->
      stepcase c c'
  | SRun t ps e l op k s' ns o thr' :
      nth_error (thr c) t = Some (Ready C l op k) ->
      frag P t e k (sh c) = (s', ns, o) ->
      deliver_all P ns ps (thr c) = Some thr' ->
      c' = MkCfg s' (upd thr' t (fst (after P t l op o (hist c)))) (snd (after P t l op o (hist c))) ->
      stepcase c c'
  | STail t p l n ns thr' :
      nth_error (thr c) t = Some (Tail K Op l (n :: ns)) ->
      deliver P n p (thr c) = Some thr' ->
      c' = MkCfg (sh c) (upd thr' t (finish K Op l ns)) (hist c) ->
      stepcase c c'
  | SSpur t l op cv k :
      nth_error (thr c) t = Some (Asleep l op cv k) ->
      c' = MkCfg (sh c) (upd (thr c) t (Ready C l op k)) (hist c) ->
      stepcase c c'
  | STime t l op cv k k' :
      nth_error (thr c) t = Some (Asleep l op cv k) ->
      on_timeout P k = Some k' ->
      c' = MkCfg (sh c) (upd (thr c) t (Ready C l op k')) (hist c) ->
      stepcase c c'
  | SIntrA t l op cv k k' :
      nth_error (thr c) t = Some (Asleep l op cv k) ->
      on_intr P k = Some k' ->
      c' = MkCfg (sh c) (upd (thr c) t (Ready C l op k')) (hist c) ->
      stepcase c c'
  | SIntrR t l op k k' :
      nth_error (thr c) t = Some (Ready C l op k) ->
      on_intr P k = Some k' ->
      c' = MkCfg (sh c) (upd (thr c) t (Ready C l op k')) (hist c) ->
      stepcase c c'.

  Lemma step_inv c lb c' : step P c lb = Some c' -> stepcase c c'.
  Proof.
    destruct lb as [t op|t ps e|t|t|t]; simpl;
      destruct (nth_error (thr c) t) as [[l|l op0 k|l op0 cv k|l ns|]|] eqn:Ht;
      try discriminate.
    - destruct (pre P l op) eqn:Hp; [|discriminate]. injection 1 as <-.
      eapply SCall; eauto.
    - destruct (frag P t e k (sh c)) as [[s' ns] o] eqn:Hf.
      destruct (deliver_all P ns ps (thr c)) as [thr'|] eqn:Hd; [|discriminate].
      destruct (after P t l op0 o (hist c)) as [x h] eqn:Ha. injection 1 as <-.
      eapply SRun; eauto. rewrite Ha; reflexivity.
    - destruct ns as [|n ns]; [discriminate|].
      destruct (deliver P n (hd 0 ps) (thr c)) as [thr'|] eqn:Hd; [|discriminate].
      injection 1 as <-. eapply STail; eauto.
    - injection 1 as <-. eapply SSpur; eauto.
    - destruct (on_timeout P k) as [k'|] eqn:Hk; [|discriminate].
      injection 1 as <-. eapply STime; eauto.
    - destruct (on_intr P k) as [k'|] eqn:Hk; [|discriminate].
      injection 1 as <-. eapply SIntrR; eauto.
    - destruct (on_intr P k) as [k'|] eqn:Hk; [|discriminate].
      injection 1 as <-. eapply SIntrA; eauto.
  Qed.

  Lemma run_inv (Inv : conf -> Prop) :
    (forall c c', Inv c -> stepcase c c' -> Inv c') ->
    forall ls c c', Inv c -> run P c ls = Some c' -> Inv c'.
  Proof.
    intros Hstep ls; induction ls as [|lb ls IH]; intros c c' Hc; simpl.
    - injection 1 as <-; auto.
    - destruct (step P c lb) as [c1|] eqn:H1; [|discriminate].
      intros H2. eapply IH; [|eauto]. eapply Hstep; eauto. eapply step_inv; eauto.
  Qed.

  Lemma reachable_inv (Inv : conf -> Prop) n s0 l0 :
    Inv (init K Op R C n s0 l0) ->
    (forall c c', Inv c -> stepcase c c' -> Inv c') ->
    forall c, reachable P n s0 l0 c -> Inv c.
  Proof. intros H0 Hstep c [ls Hls]. eapply run_inv; eauto. Qed.

  Lemma run_app c ls ls' :
    run P c (ls ++ ls') = match run P c ls with Some c' => run P c' ls' | None => None end.
  Proof.
    revert c; induction ls as [|lb ls IH]; intros c; simpl; auto.
    destruct (step P c lb); auto.
  Qed.

  Lemma reachable_step n s0 l0 c lb c' :
    reachable P n s0 l0 c -> step P c lb = Some c' -> reachable P n s0 l0 c'.
  Proof.
    intros [ls Hls] Hs. exists (ls ++ [lb]). rewrite run_app, Hls. simpl. rewrite Hs. auto.
  Qed.

  Lemma reachable_run n s0 l0 c ls c' :
    reachable P n s0 l0 c -> run P c ls = Some c' -> reachable P n s0 l0 c'.
  Proof. intros [ls0 H0] H. exists (ls0 ++ ls). rewrite run_app, H0. auto. Qed.

  Lemma reachable_init n s0 l0 : reachable P n s0 l0 (init K Op R C n s0 l0).
  Proof. exists []; reflexivity. Qed.

  Lemma quiescent_settled (c : conf) t x :
    quiescent c -> nth_error (thr c) t = Some x ->
    (exists l, x = Idle K Op C l) \/ (exists l op cv k, x = Asleep l op cv k).
  Proof.
    intros Hq Ht. unfold quiescent in Hq. rewrite forallb_forall in Hq.
    assert (Hs : settled x = true) by (apply Hq; eapply nth_error_In; eauto).
    destruct x; simpl in Hs; try discriminate; eauto 6.
  Qed.

  Lemma quiescent_sumw (w : tst -> nat) (c : conf) :
    quiescent c -> (forall l, w (Idle K Op C l) = 0) ->
    (forall l op cv k, w (Asleep l op cv k) = 0) -> sumw w (thr c) = 0.
  Proof.
    intros Hq H1 H2. apply sumw_zero. intros x Hin. apply In_nth_error in Hin as [i Hi].
    destruct (quiescent_settled i Hq Hi) as [[l ->]|(l & op & cv & k & ->)]; auto.
  Qed.

  (** The number of threads never changes. *)
  Lemma step_length (c c' : conf) : stepcase c c' -> length (thr c') = length (thr c).
  Proof.
    intros H; inversion H; subst; simpl; rewrite ?upd_length; auto.
    - eapply woken_length, deliver_all_woken; eauto.
    - eapply woken_length, deliver_woken; eauto.
  Qed.

End Machine.

Arguments run_inv {S K Op R C L E} P Inv _ ls.
Arguments reachable_inv {S K Op R C L E} P Inv n s0 l0 _ _ c _.
Arguments deliver_one_sumw {S K Op R C L E} {P} w {c p l l'} _.
Arguments deliver_all_sumw {S K Op R C L E} {P} w {c p l l'} _.
Arguments deliver_woken {S K Op R C L E} {P n p l l'} _.
Arguments deliver_all_woken {S K Op R C L E} {P ns ps l l'} _.
Arguments woken_sumw_eq {K Op C L} w {l l'} _ _.
Arguments woken_sumw_le {K Op C L} w {l l'} _ _.
Arguments woken_Forall {K Op C L} Q {l l'} _ _ _.
Arguments woken_not_asleep {K Op C L} {l l' i x} _ _ _.
Arguments woken_inv {K Op C L} {l l' i y} _ _.
Arguments quiescent_settled {S K Op R C L} {c t x} _ _.
Arguments quiescent_sumw {S K Op R C L} w {c} _ _ _.
Arguments sumw_upd {A} w {l i x} y _.
Arguments sumw_ge {A} w {l i x} _.
Arguments sumw_ge2 {A} w {l i j x y} _ _ _.
Arguments sumw_pos {A} w {l} _.
Arguments sumw_zero_inv {A} w {l x} _ _.
Arguments Forall_nth_error {A Q l i x} _ _.
Arguments nth_error_lt {A l i x} _.
Arguments nth_error_upd {A l i j x y} _.
