(** * Proofs about the queues when operations on elements throw *)
From Verif Require Import QX_Spec.
Set Implicit Arguments.

Lemma mod_once a c : a < 2 * c -> a mod c = if a <? c then a else a - c.
Proof.
  intros H. destruct (Nat.ltb_spec a c) as [L|L]; [apply Nat.mod_small; exact L|].
  symmetry. apply (Nat.mod_unique a c 1); lia.
Qed.
Ltac ring_solve := repeat (rewrite mod_once in * by lia; repeat match goal with
  | |- context [if ?a <? ?b then _ else _] => destruct (Nat.ltb_spec a b)
  | H : context [if ?a <? ?b then _ else _] |- _ => destruct (Nat.ltb_spec a b) end); try lia.

Section P.
  Variable V : Type.
  Implicit Type q : bq V.

  Lemma size_cases q : well_formed q -> size q = if out_ q <=? in_ q then in_ q - out_ q else in_ q + capacity_ q - out_ q.
  Proof. intros [Hi Ho]. unfold size. destruct (Nat.leb_spec (out_ q) (in_ q)); ring_solve. Qed.
  Lemma index_not_in q k : well_formed q -> k < size q -> (out_ q + k) mod capacity_ q <> in_ q.
  Proof.
    intros Hw Hk. rewrite (size_cases Hw) in Hk. destruct Hw as [Hi Ho].
    destruct (Nat.leb_spec (out_ q) (in_ q)); rewrite mod_once by lia; destruct (Nat.ltb_spec (out_ q + k) (capacity_ q)); lia.
  Qed.
  Lemma index_not_out q k : well_formed q -> 0 < k < size q -> (out_ q + k) mod capacity_ q <> out_ q.
  Proof.
    intros Hw Hk. rewrite (size_cases Hw) in Hk. destruct Hw as [Hi Ho].
    destruct (Nat.leb_spec (out_ q) (in_ q)); rewrite mod_once by lia; destruct (Nat.ltb_spec (out_ q + k) (capacity_ q)); lia.
  Qed.
  Lemma inc_cases q i : i < capacity_ q -> inc q i = if i + 1 <? capacity_ q then i + 1 else 0.
  Proof. intros H. unfold inc. rewrite mod_once by lia. destruct (Nat.ltb_spec (i + 1) (capacity_ q)); lia. Qed.
  Lemma inc_lt q i : i < capacity_ q -> inc q i < capacity_ q.
  Proof. intros H. apply Nat.mod_upper_bound. lia. Qed.

  Lemma set_same (d : nat -> V) i v : set d i v i = v.
  Proof. unfold set. now rewrite Nat.eqb_refl. Qed.
  Lemma set_other (d : nat -> V) i v j : j <> i -> set d i v j = d j.
  Proof. intros H. unfold set. destruct (Nat.eqb_spec j i); congruence. Qed.

  Lemma contents_cons q : well_formed q -> in_ q <> out_ q ->
    contents q = data q (out_ q) :: map (fun k => data q ((out_ q + k) mod capacity_ q)) (seq 1 (pred (size q))).
  Proof.
    intros Hw Hne. unfold contents. assert (Hs : size q = S (pred (size q))).
    { rewrite (size_cases Hw). destruct Hw. destruct (Nat.leb_spec (out_ q) (in_ q)); lia. }
    rewrite Hs at 1. cbn [seq map]. rewrite Nat.add_0_r, Nat.mod_small by apply Hw. reflexivity.
  Qed.

  (** push *)
  Lemma push_wf t v q q' o : well_formed q -> bq_push t v q = (q', o) -> well_formed q' /\ capacity_ q' = capacity_ q.
  Proof.
    intros Hw. unfold bq_push. destruct (throws t); injection 1 as <- _; cbn; [auto|]. split; [|reflexivity].
    split; cbn; [apply inc_lt|]; apply Hw.
  Qed.
  Lemma push_good t v q q' o : well_formed q -> inc q (in_ q) <> out_ q -> bq_push t v q = (q', o) -> push_ok (contents q) v (contents q') o.
  Proof.
    intros Hw Hf. unfold bq_push. destruct (throws t) eqn:Ht; injection 1 as <- <-; cbn.
    - unfold contents. cbn. apply map_ext_in. intros k Hk. apply in_seq in Hk. apply set_other.
      apply (@index_not_in q k Hw). exact (proj2 Hk).
    - unfold contents at 1. cbn.
      assert (Hs : size (BQ (set (data q) (in_ q) v) (inc q (in_ q)) (out_ q) (capacity_ q)) = S (size q)).
      { rewrite (size_cases Hw). rewrite size_cases by (split; cbn; [apply inc_lt|]; apply Hw). cbn.
        destruct Hw as [Hi Ho]. rewrite inc_cases in * by auto.
        destruct (Nat.ltb_spec (in_ q + 1) (capacity_ q)); destruct (Nat.leb_spec (out_ q) (in_ q));
          match goal with |- context [if ?a <=? ?b then _ else _] => destruct (Nat.leb_spec a b) end; lia. }
      rewrite Hs, seq_S, map_app. cbn. f_equal.
      + unfold contents. apply map_ext_in. intros k Hk. apply in_seq in Hk. apply set_other. apply (@index_not_in q k Hw). exact (proj2 Hk).
      + f_equal. replace ((out_ q + size q) mod capacity_ q) with (in_ q); [apply set_same|].
        rewrite (size_cases Hw). destruct Hw as [Hi Ho]. destruct (Nat.leb_spec (out_ q) (in_ q)).
        * replace (out_ q + (in_ q - out_ q)) with (in_ q) by lia. now rewrite Nat.mod_small.
        * replace (out_ q + (in_ q + capacity_ q - out_ q)) with (in_ q + 1 * capacity_ q) by lia.
          rewrite Nat.mod_add by lia. now rewrite Nat.mod_small.
  Qed.

  (** pull *)
  Lemma pull_keep q l : well_formed q -> in_ q <> out_ q -> l = data q (out_ q) ->
    contents (BQ (set (data q) (out_ q) l) (in_ q) (out_ q) (capacity_ q)) = contents q.
  Proof.
    intros Hw Hne ->. unfold contents. cbn. apply map_ext_in. intros k Hk.
    destruct (Nat.eq_dec ((out_ q + k) mod capacity_ q) (out_ q)) as [E|E]; [rewrite E; apply set_same|now apply set_other].
  Qed.
  Lemma pull_rest q l : well_formed q -> in_ q <> out_ q ->
    contents q = data q (out_ q) :: contents (BQ (set (data q) (out_ q) l) (in_ q) (inc q (out_ q)) (capacity_ q)).
  Proof.
    intros Hw Hne. rewrite (contents_cons Hw Hne). f_equal. unfold contents. cbn.
    assert (Hs : size (BQ (set (data q) (out_ q) l) (in_ q) (inc q (out_ q)) (capacity_ q)) = pred (size q)).
    { rewrite (size_cases Hw). rewrite size_cases by (split; cbn; [|apply inc_lt]; apply Hw). cbn.
      destruct Hw as [Hi Ho]. rewrite inc_cases by auto.
      destruct (Nat.ltb_spec (out_ q + 1) (capacity_ q)); destruct (Nat.leb_spec (out_ q) (in_ q));
        match goal with |- context [if ?a <=? ?b then _ else _] => destruct (Nat.leb_spec a b) end; lia. }
    rewrite Hs, <- seq_shift, map_map. apply map_ext_in. intros k Hk. apply in_seq in Hk. destruct Hk as [_ Hk]. cbn in Hk.
    assert (E : (inc q (out_ q) + k) mod capacity_ q = (out_ q + S k) mod capacity_ q).
    { unfold inc. rewrite Nat.add_mod_idemp_l by (destruct Hw; lia). f_equal. lia. }
    rewrite E. symmetry. apply set_other. apply (@index_not_out q (S k) Hw). lia.
  Qed.
  Lemma pull_wf (d : nat -> V) q : well_formed q -> well_formed (BQ d (in_ q) (inc q (out_ q)) (capacity_ q)).
  Proof. intros [Hi Ho]. split; cbn; [exact Hi|now apply inc_lt]. Qed.
  Lemma pull_ref_good t q q' o : well_formed q -> in_ q <> out_ q -> keeps t (data q (out_ q)) ->
    bq_pull_ref t q = (q', o) -> pull_ok (contents q) (contents q') o /\ well_formed q'.
  Proof.
    intros Hw Hne Hk. unfold bq_pull_ref. destruct (throws t) eqn:Ht; injection 1 as <- <-; cbn.
    - split; [apply pull_keep; auto|exact Hw].
    - split; [now apply pull_rest|now apply pull_wf].
  Qed.
  Lemma pull_val_good t r q q' o : well_formed q -> in_ q <> out_ q -> keeps t (data q (out_ q)) -> throws r = false ->
    bq_pull_val t r q = (q', o) -> pull_ok (contents q) (contents q') o /\ well_formed q'.
  Proof.
    intros Hw Hne Hk Hr. unfold bq_pull_val. rewrite Hr. destruct (throws t) eqn:Ht; injection 1 as <- <-; cbn.
    - split; [apply pull_keep; auto|exact Hw].
    - split; [now apply pull_rest|now apply pull_wf].
  Qed.

  (** ** Waiting calls *)
  Implicit Type s : bsys V.
  Lemma enters_len s t l l' : enters s t l l' -> length l' <= length l /\ length l <= S (length l').
  Proof. intros [_ ->|l1 l2 -> ->]; [lia|]. rewrite !app_length. cbn. lia. Qed.

  Definition InvE s : Prop :=
    (length (sleepE s) <= length (notifyE s) + waiting_empty s) /\
    (length (sleepE s) <= length (notifyE s) \/
     length (items s) <= length (wokenE s) + length (notifyE s) + thrown (@is_pull_threw V) (hist s)).
  Definition InvF cap s : Prop :=
    length (items s) <= cap /\
    (length (sleepF s) <= length (notifyF s) + waiting_full s) /\
    (length (sleepF s) <= length (notifyF s) \/
     cap - length (items s) <= length (wokenF s) + length (notifyF s) + thrown (@is_push_threw V) (hist s)).

  Ltac fin s := cbn in *; repeat match goal with H : enters _ _ _ _ |- _ => apply enters_len in H end;
    repeat match goal with E : _ s = ?l ++ _ |- _ => let E' := fresh in pose proof (f_equal (@length _) E) as E'; clear E; rewrite app_length in E'; cbn in E' end;
    repeat match goal with E : items s = _ |- _ => rewrite E in *; clear E end; rewrite ?app_length in *; cbn in *; lia.

  Lemma breach_inv cap s : breach cap s -> InvE s /\ InvF cap s.
  Proof.
    induction 1 as [|s s' _ [[E1 E2] [F0 [F1 F2]]] Hs].
    - unfold InvE, InvF. cbn. lia.
    - unfold InvE, InvF, thrown in *. inversion Hs; subst; cbn [items waiting_empty waiting_full sleepE sleepF wokenE wokenF notifyE notifyF hist filter is_pull_threw is_push_threw] in *.
      + fin s.
      + destruct (Nat.ltb_spec 0 (waiting_full s)); fin s.
      + fin s.
      + fin s.
      + destruct (Nat.ltb_spec 0 (waiting_empty s)); fin s.
      + fin s.
      + fin s.
      + match goal with E : sleepE s = [] |- _ => rewrite E in * end. fin s.
      + fin s.
      + match goal with E : sleepF s = [] |- _ => rewrite E in * end. fin s.
      + fin s.
      + fin s.
  Qed.

  (** *** One condition variable *)
  Lemma sreach_asleep (pushes pulls : list V -> list V -> outcome V -> Prop) (s : ssys V) :
    (forall l l', pushes l l' (Threw V) -> l' = l) ->
    sreach pushes pulls s -> sleep s <> [] -> elems s = [].
  Proof.
    intros Hpu. induction 1 as [|s s' Hr IH Hs]; [reflexivity|]. inversion Hs; subst; cbn in *; intros Hn.
    - congruence.
    - match goal with H : pushes _ _ _ |- _ => rewrite (Hpu _ _ H) end. auto.
    - assumption.
    - match goal with H : elems s <> [] |- _ => destruct (H (IH Hn)) end.
    - apply IH. match goal with H : sleep s = _ |- _ => rewrite H end. now destruct l1.
  Qed.
  Lemma pq_len_threw (q q' : list V) : @pq_pushes V false q q' (Threw V) -> q' = q.
  Proof.
    intros (h & t & c & v & E & _ & Hc). unfold pq_push in E. destruct t; [now injection E|].
    destruct c as [l|]; [destruct (Hc _ eq_refl); discriminate|discriminate].
  Qed.
End P.
