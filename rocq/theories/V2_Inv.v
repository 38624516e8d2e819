(** * The invariant of the thread_v2 mutexes *)

From Verif Require Import MonWake V2_Model.

Section V2.
  Variable M : nat.
  Hypothesis HM : 1 <= M.
  Variable allow : sop -> bool.
  Notation P := (v2prog M allow false).
  Notation conf := (cfg v2s vk sop vres vcv mode).
  Notation tst := (tstat vk sop vcv mode).

  Definition g1op (op : sop) : bool :=
    match op with
    | SLock | STimedLock | SLockSh | STimedLockSh | SLockUp | STimedLockUp | STimedShToX | STimedShToUp => true
    | _ => false
    end.
  Definition g2op (op : sop) : bool :=
    match op with SLock | STimedLock | SUpToX | STimedUpToX | STimedShToX => true | _ => false end.

  Definition kok (op : sop) (k : vk) : Prop :=
    match k with
    | VB op' => op' = op
    | VG1 op' => op' = op /\ g1op op = true
    | VD1 op' => op' = op /\ g1op op = true /\ s_timed op = true
    | VG2 op' _ => op' = op /\ g2op op = true
    | VD2 op' _ => op' = op /\ g2op op = true /\ s_timed op = true
    | VI => False
    end.
  Definition stat (x : tst) : Prop :=
    match x with
    | Idle _ _ _ _ => True
    | Ready _ l op k => l = s_from op /\ allow op = true /\ kok op k
    | Asleep l op cv k => l = s_from op /\ allow op = true /\ kok op k /\
        match k with VG1 _ => cv = G1 | VG2 _ _ => cv = G2 | _ => False end
    | Tail _ _ _ _ | Crashed _ _ _ _ => False
    end.

  Definition lmode (x : tst) : mode :=
    match x with Idle _ _ _ l | Ready _ l _ _ | Asleep l _ _ _ | Tail _ _ l _ => l | Crashed _ _ _ _ => MNone end.
  Definition kof (x : tst) : option vk := match x with Ready _ _ _ k | Asleep _ _ _ k => Some k | _ => None end.
  Definition at2 (x : tst) : bool := match kof x with Some (VG2 _ _) | Some (VD2 _ _) => true | _ => false end.

  Definition wS (x : tst) : nat := match lmode x with MSh => if at2 x then 0 else 1 | _ => 0 end.
  Definition wU (x : tst) : nat := match lmode x with MUp => if at2 x then 0 else 1 | _ => 0 end.
  Definition wG (x : tst) : nat := if at2 x then 1 else 0.
  Definition wX (x : tst) : nat := match lmode x with MX => 1 | _ => 0 end.

  Definition wA (x : tst) : nat := match x with Asleep _ _ G2 _ => 1 | _ => 0 end.
  Definition wBs (x : tst) : nat := match x with Asleep _ SLockSh G1 _ | Asleep _ STimedLockSh G1 _ => 1 | _ => 0 end.
  Definition wBw (x : tst) : nat :=
    match x with Asleep _ SLockSh G1 _ | Asleep _ STimedLockSh G1 _ => 0 | Asleep _ _ G1 _ => 1 | _ => 0 end.

  Definition tr (b : bool) : Prop := if b then True else False.
  Definition fa (b : bool) : Prop := if b then False else True.

  Record Cnt (s : v2s) (S U G X : nat) : Prop := {
    k_we : tr (v_we s) -> X + G = 1;
    k_nw : fa (v_we s) -> X + G = 0;
    k_ug : tr (v_ug s) -> U = 1;
    k_nu : fa (v_ug s) -> U = 0;
    k_wu : tr (v_we s) -> fa (v_ug s);
    k_nr : S + U <= v_nr s;
    k_max : v_nr s <= M;
    k_x : X = 1 -> v_nr s = 0
  }.
  Record Cnt2 (s : v2s) (S U G A Bs Bw : nat) : Prop := {
    k_eq : v_nr s <= S + U;
    k_ag : A <= G;
    k_a : 0 < A -> 0 < v_nr s;
    k_bs : 0 < Bs -> tr (v_we s);
    k_bw : 0 < Bw -> tr (v_we s) \/ tr (v_ug s)
  }.

  (** The local variable num_readers of a conversion is never below the shared count. *)
  Definition loc (s : v2s) (x : tst) : Prop :=
    match kof x with
    | Some (VG2 op k) | Some (VD2 op k) => match op with STimedShToX | STimedUpToX => v_nr s <= k < M | _ => True end
    | _ => True
    end.

  Definition cnt (s : v2s) (l : list tst) : Prop := Cnt s (sumw wS l) (sumw wU l) (sumw wG l) (sumw wX l).
  Definition cnt2 (s : v2s) (l : list tst) : Prop :=
    Cnt2 s (sumw wS l) (sumw wU l) (sumw wG l) (sumw wA l) (sumw wBs l) (sumw wBw l).

  Record Inv (c : conf) : Prop := {
    i_stat : Forall stat (thr c);
    i_cnt : cnt (sh c) (thr c);
    i_loc : Forall (loc (sh c)) (thr c)
  }.

  Lemma stat_wake x : is_asleep x = true -> stat x -> stat (wake x).
  Proof. destruct x; simpl; try discriminate. tauto. Qed.
  Lemma lm_wake x : lmode (wake x) = lmode x. Proof. destruct x; auto. Qed.
  Lemma kof_wake x : kof (wake x) = kof x. Proof. destruct x; auto. Qed.
  Lemma at2_wake x : at2 (wake x) = at2 x. Proof. unfold at2. now rewrite kof_wake. Qed.
  Lemma loc_wake s x : loc s x -> loc s (wake x). Proof. unfold loc. now rewrite kof_wake. Qed.

  Lemma woken_mode l l' : woken_rel l l' ->
    sumw wS l' = sumw wS l /\ sumw wU l' = sumw wU l /\ sumw wG l' = sumw wG l /\ sumw wX l' = sumw wX l.
  Proof.
    intros Hw. repeat split; apply (woken_sumw_eq _ Hw); intros x _; unfold wS, wU, wG, wX; rewrite ?lm_wake, ?at2_wake; auto.
  Qed.
  Lemma wake_mono l l' : woken_rel l l' ->
    sumw wA l' <= sumw wA l /\ sumw wBs l' <= sumw wBs l /\ sumw wBw l' <= sumw wBw l.
  Proof.
    intros Hw. repeat split; apply (woken_sumw_le _ Hw); intros [| | | |]; simpl; lia.
  Qed.

  Definition v_y (t : nat) (l : mode) (op : sop) (o : outcome vk vcv vres) : tst := fst (after P t l op o []).
  Lemma after_y t l op o h : fst (after P t l op o h) = v_y t l op o.
  Proof. destruct o as [|? []| | |]; reflexivity. Qed.

  Lemma frag_nums t e l op k s s' ns o :
    stat (Ready vcv l op k) -> vfrag M t e k s = (s', ns, o) ->
    let x := Ready vcv l op k in let y := v_y t l op o in
    forall S U G X, Cnt s (S + wS x) (U + wU x) (G + wG x) (X + wX x) -> loc s x ->
      stat y /\ Cnt s' (S + wS y) (U + wU y) (G + wG y) (X + wX y) /\ loc s' y /\ (0 < G -> v_nr s' <= v_nr s) /\
      (ns = [] \/ ns = [NAll G1] \/ ns = [NOne G1] \/ ns = [NOne G2]) /\
      forall A Bs Bw A0 Bs0 Bw0,
        match op with STimedLock | STimedShToX | STimedUpToX => False | _ => True end ->
        Cnt2 s (S + wS x) (U + wU x) (G + wG x) A0 Bs0 Bw0 ->
        A <= A0 -> Bs <= Bs0 -> Bw <= Bw0 -> (ns = [NAll G1] -> Bs = 0 /\ Bw = 0) -> (ns = [NOne G2] -> A = 0) ->
        A <= G -> S + U < M ->
        Cnt2 s' (S + wS y) (U + wU y) (G + wG y) (A + wA y) (Bs + wBs y) (Bw + wBw y).
  Proof.
    intros Hst Hfr x y. subst x y. unfold v_y.
    destruct k as [op'|op'|op'|op' kk|op' kk|]; simpl in Hst;
      [destruct Hst as (-> & Ha & ->)|destruct Hst as (-> & Ha & -> & Hwt)|destruct Hst as (-> & Ha & -> & Hwt & Htm)
      |destruct Hst as (-> & Ha & -> & Hwt)|destruct Hst as (-> & Ha & -> & Hwt & Htm)|tauto];
      destruct op; try discriminate;
      unfold vfrag, v_gate1, v_enter, v_gate2, v_pred1, v_upgraded, v_written in Hfr;
      destruct s as [[|] [|] n]; simpl in Hfr.
    all: repeat match type of Hfr with
           | context [?a =? ?b] => destruct (Nat.eqb_spec a b); simpl in Hfr
           | context [?a <? ?b] => destruct (Nat.ltb_spec a b); simpl in Hfr
           | context [if ?b then _ else _] => destruct b eqn:?
           end;
      inversion Hfr; subst; clear Hfr; unfold loc; simpl;
      intros S U G X HC Hloc; unfold wS, wU, wG, wX, at2 in *; simpl in *; destruct HC; unfold tr, fa in *; simpl in *;
      (split; [try (exfalso; lia); repeat split; auto|]);
      (split; [constructor; simpl; lia|]);
      (split; [try exact I; lia|]);
      (split; [lia|]);
      (split; [tauto|]);
      try (intros; tauto);
      intros A Bs Bw A0 Bs0 Bw0 _ H2 HA HBs HBw Hall Huc HAG HSU;
      try (specialize (Hall eq_refl));
      try (specialize (Huc eq_refl));
      destruct H2; simpl in *; constructor; simpl; lia.
  Qed.
End V2.
