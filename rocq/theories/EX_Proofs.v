(** * Proofs about basic_thread_pool and loop_executor *)
From Verif Require Import SQ_Model SQ_Spec SQ_Proofs.
From Verif Require Export MonWake MonTrace EX_Model.
Set Implicit Arguments.
Local Arguments dv_empty {V} _ : simpl never.
Local Arguments dv_pull {V} _ : simpl never.
Local Arguments dv_push_back {V} _ _ : simpl never.
Local Arguments dv_stored {V} _ : simpl never.

Notation tst := (tstat ek eop ecv unit).
Notation exconf := (cfg ex ek eop eres ecv unit).
Definition b2n (b : bool) : nat := if b then 1 else 0.
Definition kw (x : tst) (f : ek -> nat) : nat := match x with Ready _ _ _ k | Asleep _ _ _ k => f k | _ => 0 end.
Definition cnt (f : ek -> nat) (l : list tst) : nat := sumw (fun x => kw x f) l.
Lemma cnt_upd f x (y : tst) t l : nth_error l t = Some x -> cnt f (upd l t y) + kw x f = cnt f l + kw y f.
Proof. intros H. exact (sumw_upd (fun x => kw x f) y H). Qed.
Arguments cnt_upd f {x} y {t l} _.
Lemma cnt_ge f x (t : nat) l : nth_error l t = Some x -> kw x f <= cnt f l.
Proof. intros H. exact (sumw_ge (fun x => kw x f) H). Qed.
Lemma cnt_woken f l l' : woken_rel l l' -> cnt f l' = cnt f l.
Proof. intros H. apply (woken_sumw_eq _ H). intros []; reflexivity. Qed.
Lemma cnt_repeat f n : (cnt f (repeat (Idle ek eop ecv tt) n)) = 0.
Proof. unfold cnt. rewrite sumw_repeat. simpl. lia. Qed.
Definition out_k (f : ek -> nat) (o : outcome ek ecv eres) : nat := match o with OYield _ _ k' | OSleep _ _ k' => f k' | _ => 0 end.

Notation occ := (count_occ Nat.eq_dec).
Definition stk_of (k : ek) : list nat := match k with KRun _ stk => stk | _ => [] end.
(** closure [x] is being run here *)
Definition fx (x : nat) (k : ek) : nat := occ (stk_of k) x.
(** this thread is worker [i] *)
Definition bb (i : nat) (b : base) : nat := match b with BWork j => b2n (i =? j) | _ => 0 end.
Definition bw (i : nat) (k : ek) : nat := match k with KNext b | KWake b | KRun b _ => bb i b | _ => 0 end.

Lemma mem_In i l : mem i l = true <-> In i l.
Proof. unfold mem. rewrite existsb_exists. split; [intros (j & Hj & E); apply Nat.eqb_eq in E; now subst|intros H; exists i; split; auto; apply Nat.eqb_refl]. Qed.

(** the queue holds the accepted closures not yet begun, in order *)
Record qinv (s : ex) : Prop := {
  q_wf : dv_wf (q s);
  q_le : length (begun s) <= accepted s;
  q_st : dv_stored (q s) = seq (length (begun s)) (accepted s - length (begun s));
  q_bg : begun s = rev (seq 0 (length (begun s))) }.

Definition nobatch (b : base) : Prop := match b with BBatch _ => False | _ => True end.
Section Inv.
  Variables (W : nat) (al : eop -> bool).
  Hypothesis Hal : al ORunQueued = false.
  Notation P := (exprog W al).

  Definition okb (s : ex) (b : base) : Prop := match b with BBatch _ => False | BLoop2 => cl s = true | BWork i => i < W | _ => True end.
  Definition okk (s : ex) (op : eop) (k : ek) : Prop :=
    match k with
    | KStart op' => op' = op /\ op <> ORunQueued
    | KNext b | KRun b _ => okb s b /\ match b with BWork _ => op = OWork | BTry => op = OTry | _ => op = OLoop end
    | KWake b => okb s b /\ match b with BWork _ => op = OWork | BLoop1 => op = OLoop | _ => False end
    | KJoin => op = OJoin
    | KInt i => op = ODestroy /\ i <= W /\ (forall j, j < i -> In j (wend s)) /\ cl s = true
    | KIntJoin i => op = ODestroy /\ i < W /\ (forall j, j < i -> In j (wend s)) /\ cl s = true
    end.
  Definition blocked (s : ex) (cv : ecv) (k : ek) : Prop :=
    match cv, k with
    | CCond, KWake b => dv_stored (q s) = [] /\ cl s = false /\ match b with BWork i => ~ In i (intr s) | _ => True end
    | CEnd, KJoin => exists i, i < W /\ ~ In i (wend s)
    | CEnd, KIntJoin i => ~ In i (wend s)
    | _, _ => False
    end.
  Definition stat (s : ex) (x : tst) : Prop :=
    match x with
    | Idle _ _ _ _ => True
    | Ready _ _ op k => okk s op k
    | Asleep _ op cv k => okk s op k /\ blocked s cv k
    | _ => False
    end.

  Definition mono (s s' : ex) : Prop := (cl s = true -> cl s' = true) /\ incl (wend s) (wend s').
  Lemma okk_mono s s' op k : mono s s' -> okk s op k -> okk s' op k.
  Proof.
    intros [M1 M2] H. destruct k as [op'|b|b|b stk| |i|i]; simpl in *; auto.
    - destruct H as [H1 H2]. split; auto. destruct b; simpl in *; auto.
    - destruct H as [H1 H2]. split; auto. destruct b; simpl in *; auto.
    - destruct H as [H1 H2]. split; auto. destruct b; simpl in *; auto.
    - destruct H as (H1 & H2 & H3 & H4). repeat split; auto.
    - destruct H as (H1 & H2 & H3 & H4). repeat split; auto.
  Qed.

  Lemma pull_ok s : qinv s -> dv_empty (q s) = false -> exists d, dv_pull (q s) = Some (length (begun s), d) /\ qinv (begin_ (length (begun s)) (set_q d s)) /\ dv_stored (q s) <> [].
  Proof.
    intros [H1 H2 H3 H4] He. assert (Hne : dv_stored (q s) <> []) by (intros E; apply (dv_empty_spec H1) in E; congruence).
    destruct (accepted s - length (begun s)) as [|m] eqn:Em; [simpl in H3; congruence|]. simpl in H3.
    destruct (dv_pop_spec H1 H3) as (A1 & A2 & A3 & _). exists (dv_pop_front (q s)). split; [unfold dv_pull; now rewrite A1|]. split; [|exact Hne].
    constructor; cbn [q set_q begin_ begun accepted length]; auto; [lia| |].
    - rewrite A3. f_equal. lia.
    - rewrite seq_S, rev_app_distr. simpl. now rewrite <- H4.
  Qed.
  Lemma push_ok s : qinv s -> qinv (accept s).
  Proof.
    intros [H1 H2 H3 H4]. destruct (dv_push_spec (accepted s) H1) as [A1 A2]. constructor; cbn [q accept begun accepted]; auto.
    rewrite A2, H3. replace (S (accepted s) - length (begun s)) with (S (accepted s - length (begun s))) by lia. rewrite seq_S. do 2 f_equal. lia.
  Qed.

  Definition done_ok (s : ex) (op : eop) (r : eres) : Prop :=
    match op with
    | OJoin => forall i, i < W -> In i (wend s)
    | ODestroy => cl s = true /\ forall i, i < W -> In i (wend s)
    | OLoop => cl s = true /\ dv_stored (q s) = []
    | OClose => cl s = true
    | OSubmit => r = RThrow -> cl s = true
    | _ => True end.
  Definition ended_all (s : ex) (op : eop) (o : outcome ek ecv eres) : Prop :=
    match o with ORet _ _ r => done_ok s op r | _ => True end.

  Lemma pull_run_ok b stk s : qinv s -> negb (dv_empty (q s)) = true -> exists d, pull_run b stk s = (begin_ (length (begun s)) (set_q d s), [], OYield ecv eres (KRun b (length (begun s) :: stk))) /\
    qinv (begin_ (length (begun s)) (set_q d s)) /\ dv_stored (q s) <> [].
  Proof.
    intros HQ He. apply negb_true_iff in He. destruct (pull_ok HQ He) as (d & E & H1 & H2). exists d. unfold pull_run. rewrite E. auto.
  Qed.
  Lemma occ_cons x y l : occ (y :: l) x = b2n (x =? y) + occ l x.
  Proof. simpl. destruct (Nat.eq_dec y x) as [->|Hn]; [rewrite Nat.eqb_refl; reflexivity|]. destruct (Nat.eqb_spec x y); [congruence|reflexivity]. Qed.
  Lemma qinv_end x s : qinv s -> qinv (end_ x s).
  Proof. intros [H1 H2 H3 H4]. constructor; auto. Qed.
  Lemma empty_st s : qinv s -> negb (dv_empty (q s)) = false -> dv_stored (q s) = [].
  Proof. intros HQ He. apply negb_false_iff in He. now apply (dv_empty_spec (q_wf HQ)). Qed.
  Lemma mem_not i l : mem i l = false -> ~ In i l.
  Proof. intros E Hin. apply mem_In in Hin. congruence. Qed.

  Ltac open Hf HQ :=
    cbn [efrag] in Hf; unfold go_on, worker_ends in Hf;
    repeat match type of Hf with context [if ?b then _ else _] => destruct b eqn:? end;
    try match type of Hf with pull_run ?b ?stk ?s = _ => let d := fresh "d" in let E := fresh "E" in let Hq := fresh "Hq" in let Hne := fresh "Hne" in
        destruct (pull_run_ok b stk HQ) as (d & E & Hq & Hne); [assumption|]; rewrite E in Hf end;
    inversion Hf; subst; clear Hf.
  Ltac split_k k op a Hk :=
    destruct k as [op'|b|b|b stk| |i|i]; [destruct Hk as [-> Hop]; destruct op; try congruence|destruct b; try (exfalso; exact (proj1 Hk))|destruct b; try (exfalso; exact (proj2 Hk)); try (exfalso; exact (proj1 Hk))|
       destruct b; try (exfalso; exact (proj1 Hk)); destruct stk as [|x0 [|x1 stk]]; destruct a| | |].

  Lemma frag_q t a k s s' ns o op : efrag W t a k s = (s', ns, o) -> okk s op k -> qinv s -> qinv s' /\ mono s s'.
  Proof.
    intros Hf Hk HQ. assert (Hinc : forall (i : nat) l, incl l (i :: l)) by (intros i l z Hz; right; auto).
    pose proof (push_ok HQ) as Hpu. pose proof (fun x => qinv_end x HQ) as Hen. pose proof HQ as [H1 H2 H3 H4].
    split_k k op a Hk; open Hf HQ; (split; [first [exact HQ|exact Hpu|exact (Hen _)|exact Hq|constructor; auto]|split; cbn; auto; apply incl_refl || apply Hinc]).
  Qed.
  Lemma frag_x t a k s s' ns o op : efrag W t a k s = (s', ns, o) -> okk s op k -> qinv s ->
    forall x, occ (ended s') x + out_k (fx x) o + occ (begun s) x = occ (ended s) x + fx x k + occ (begun s') x.
  Proof.
    intros Hf Hk HQ x.
    split_k k op a Hk; open Hf HQ; cbn [out_k fx stk_of ended begun end_ begin_ set_q accept set_cl new_worker end_worker interrupt]; unfold fx; cbn [stk_of]; rewrite ?occ_cons; cbn [count_occ]; lia.
  Qed.
  Lemma frag_w t a k s s' ns o op : efrag W t a k s = (s', ns, o) -> okk s op k -> qinv s -> nw s <= W ->
    nw s' <= W /\ (forall i, occ (wend s') i + out_k (bw i) o + b2n (i <? nw s) = occ (wend s) i + bw i k + b2n (i <? nw s')).
  Proof.
    intros Hf Hk HQ HW.
    split_k k op a Hk; open Hf HQ; cbn [nw end_ begin_ set_q accept set_cl new_worker end_worker interrupt]; (split; [auto|intros i0; cbn [out_k bw bb wend end_ begin_ set_q accept set_cl new_worker end_worker interrupt]; rewrite ?occ_cons; try lia]).
    - apply Nat.ltb_lt in Heqb. lia.
    - destruct (Nat.ltb_spec i0 (nw s)), (Nat.ltb_spec i0 (S (nw s))), (Nat.eqb_spec i0 (nw s)); cbn; lia.
  Qed.
  Lemma frag_s t a k s s' ns o op : efrag W t a k s = (s', ns, o) -> okk s op k -> qinv s ->
    (match o with ORet _ _ _ => True | OSleep _ cv k' => okk s' op k' /\ blocked s' cv k' | OYield _ _ k' => okk s' op k' | _ => False end) /\ ended_all s' op o.
  Proof.
    intros Hf Hk HQ. pose proof (empty_st HQ) as HE.
    split_k k op a Hk; open Hf HQ; unfold ended_all, done_ok; cbn in *; repeat split; auto; try tauto; try (intros; lia); try discriminate.
    all: try lazymatch type of Hk with _ /\ _ => destruct Hk as [Hk1 Hk2] end; subst; auto; try discriminate; try (apply mem_not; assumption); try tauto.
    - apply Nat.ltb_lt. assumption.
    - intros i Hi. rewrite forallb_forall in Heqb. apply mem_In. apply Heqb. apply in_seq. lia.
    - destruct (existsb (fun i => negb (mem i (wend s'))) (seq 0 W)) eqn:Ex.
      + apply existsb_exists in Ex as (i & Hi & Hn). apply in_seq in Hi. apply negb_true_iff in Hn. exists i. split; [lia|apply mem_not; auto].
      + exfalso. apply not_true_iff_false in Heqb. apply Heqb. apply forallb_forall. intros i Hi. destruct (mem i (wend s')) eqn:Em; auto.
        assert (existsb (fun i => negb (mem i (wend s'))) (seq 0 W) = true); [|congruence]. apply existsb_exists. exists i. rewrite Em. auto.
    - apply Nat.ltb_lt; assumption.
    - apply Nat.ltb_ge in Heqb. split; [tauto|]. intros j Hj. apply (proj1 (proj2 Hk2)). lia.
    - intros j Hj; destruct (Nat.eq_dec j i) as [->|]; [now apply mem_In|]. apply (proj1 (proj2 Hk2)). lia.
  Qed.
  Lemma frag_n t a k s s' ns o op : efrag W t a k s = (s', ns, o) -> okk s op k -> qinv s ->
    ((dv_stored (q s') <> [] -> dv_stored (q s) = [] -> In (NAll CCond) ns) /\ (cl s' <> cl s -> In (NAll CCond) ns) /\ (intr s' <> intr s -> In (NAll CCond) ns) /\
      (wend s' <> wend s -> In (NAll CEnd) ns)) /\
    (op <> ODestroy -> intr s' = intr s) /\
    ((wend s <> [] -> intr s = [] -> cl s = true /\ dv_stored (q s) = []) -> wend s' <> [] -> intr s' = [] -> cl s' = true /\ dv_stored (q s') = []).
  Proof.
    intros Hf Hk HQ. pose proof (empty_st HQ) as HE.
    split_k k op a Hk; open Hf HQ; cbn in *; repeat split; auto; try congruence; try tauto; try (intros; exfalso; congruence).
    all: try (match goal with H1 : intr ?s = [], H2 : mem _ (intr ?s) = true |- _ => exfalso; rewrite H1 in H2; discriminate end).
    all: try (match goal with H : wend ?s <> [] -> _ -> _, H1 : wend ?s <> [], H2 : intr ?s = [] |- _ => destruct (H H1 H2); auto; exfalso; congruence end).
    all: try (exfalso; congruence); auto.
  Qed.
  Lemma frag_c t a k s s' ns o op : efrag W t a k s = (s', ns, o) -> okk s op k -> qinv s -> cl s = true -> dv_stored (q s) = [] -> dv_stored (q s') = [].
  Proof.
    intros Hf Hk HQ Hc He. pose proof (empty_st HQ) as HE.
    split_k k op a Hk; open Hf HQ; cbn in *; auto; congruence.
  Qed.

  Record Inv (c : exconf) : Prop := {
    v_q : qinv (sh c);
    v_x : forall x, occ (ended (sh c)) x + cnt (fx x) (thr c) = occ (begun (sh c)) x;
    v_nw : nw (sh c) <= W;
    v_w : forall i, occ (wend (sh c)) i + cnt (bw i) (thr c) = b2n (i <? nw (sh c));
    v_st : Forall (stat (sh c)) (thr c);
    v_al : Forall (fun x : tst => match x with Ready _ _ op _ | Asleep _ op _ _ => al op = true | _ => True end) (thr c);
    v_end : wend (sh c) <> [] -> intr (sh c) = [] -> cl (sh c) = true /\ dv_stored (q (sh c)) = [];
    v_intr : al ODestroy = false -> intr (sh c) = [];
    v_done : forall t op r, In (EDone t op r) (hist c) ->
      done_ok (sh c) op r }.

  Lemma stat_wake s x : is_asleep x = true -> stat s x -> stat s (wake x).
  Proof. destruct x; simpl; try discriminate. tauto. Qed.
  Lemma Inv_step c c' : Inv c -> stepcase P c c' -> Inv c'.
  Proof.
    intros [HQ HX HN HW HS HA HE HI HD] Hs. destruct Hs as
     [t l op Ht Hp ->|t ps e l op k s' ns o thr' Ht Hfr Hd ->|t p l n ns thr' Ht Hd ->
     |t l op cv k Ht ->|t l op cv k k' Ht Hk ->|t l op cv k k' Ht Hk ->|t l op k k' Ht Hk ->]; try discriminate Hk.
    - pose proof (fun f => cnt_upd f (Ready ecv l op (KStart op)) Ht) as U. cbn [kw] in U.
      constructor; cbn [sh thr hist start exprog]; auto.
      + intros x. specialize (U (fx x)). specialize (HX x). cbn in U. lia.
      + intros i. specialize (U (bw i)). specialize (HW i). cbn in U. lia.
      + apply Forall_upd; auto. split; auto. intros ->. cbn in Hp. congruence.
      + apply Forall_upd; [auto|exact Hp].
      + intros t' op' r' [E|Hin]; [discriminate|exact (HD _ _ _ Hin)].
    - pose proof (Forall_nth_error HS Ht) as Hk. pose proof (Forall_nth_error HA Ht) as Hal'. pose proof (deliver_all_woken Hd) as Hw.
      assert (Ht' : nth_error thr' t = Some (Ready ecv l op k)) by (apply (woken_not_asleep Hw Ht); reflexivity).
      cbn [frag exprog stat] in *. destruct (frag_q _ _ _ op Hfr Hk HQ) as [F1 F2]. pose proof (frag_x _ _ _ op Hfr Hk HQ) as F3. destruct (frag_w _ _ _ op Hfr Hk HQ HN) as [F4 F5].
      destruct (frag_s _ _ _ op Hfr Hk HQ) as [F6 F7]. destruct (frag_n _ _ _ op Hfr Hk HQ) as ((N1 & N2 & N3 & N4) & F8 & F9). pose proof (frag_c _ _ _ op Hfr Hk HQ) as F10.
      pose proof (fun f => cnt_upd f (fst (after P t l op o (hist c))) Ht') as U. cbn [kw] in U.
      assert (Uo : forall f, kw (fst (after P t l op o (hist c))) f = out_k f o) by (intros f; destruct o; try contradiction; reflexivity).
      constructor; cbn [sh thr hist]; auto.
      + intros x. specialize (U (fx x)). rewrite Uo, (cnt_woken (fx x) Hw) in U. specialize (HX x). specialize (F3 x). lia.
      + intros i. specialize (U (bw i)). rewrite Uo, (cnt_woken (bw i) Hw) in U. specialize (HW i). specialize (F5 i). lia.
      + apply Forall_upd.
        * assert (HS' : Forall (stat (sh c)) thr') by (eapply woken_Forall; [exact Hw|apply stat_wake|auto]).
          rewrite Forall_forall in HS' |- *. intros x Hin. specialize (HS' _ Hin). destruct x as [l0|l0 op0 k0|l0 op0 cv0 k0|l0 ns0|]; auto.
          -- exact (okk_mono _ _ F2 HS').
          -- destruct HS' as [G1 G2]. split; [exact (okk_mono _ _ F2 G1)|].
             assert (K : In (NAll cv0) ns -> False).
             { intros Hi. pose proof (deliver_all_NAll P cv0 _ _ _ Hd Hi) as Hn. rewrite Forall_forall in Hn. specialize (Hn _ Hin). cbn in Hn. destruct cv0; discriminate Hn. }
             destruct cv0, k0 as [op'|b|b|b stk| |i|i]; cbn in G2 |- *; try contradiction.
             ++ destruct G2 as (G2 & G3 & G4). assert (cl s' = cl (sh c)) by (destruct (Bool.bool_dec (cl s') (cl (sh c))); auto; exfalso; auto).
                assert (dv_stored (q s') = []) by (destruct (dv_stored (q s')) eqn:Es; auto; exfalso; apply K, N1; congruence).
                assert (intr s' = intr (sh c)) by (destruct (list_eq_dec Nat.eq_dec (intr s') (intr (sh c))); auto; exfalso; auto).
                split; auto. split; [congruence|]. destruct b; auto. congruence.
             ++ destruct G2 as (i & G2 & G3). exists i. split; auto. destruct (list_eq_dec Nat.eq_dec (wend s') (wend (sh c))) as [->|]; auto; exfalso; auto.
             ++ destruct (list_eq_dec Nat.eq_dec (wend s') (wend (sh c))) as [->|]; auto; exfalso; auto.
        * destruct o; try contradiction; auto.
      + apply Forall_upd; [|destruct o; try contradiction; simpl; auto].
        eapply woken_Forall; [exact Hw| |auto]. intros [] _ Hy; exact Hy.
      + intros Hd0. rewrite F8; auto. intros ->. congruence.
      + assert (HD' : forall t0 op0 r0, In (EDone t0 op0 r0) (hist c) -> done_ok s' op0 r0).
        { intros t0 op0 r0 Hin. specialize (HD _ _ _ Hin). destruct F2 as [M1 M2]. destruct op0; cbn in *; auto; destruct HD; auto. }
        destruct o as [r| | | |]; try contradiction; simpl; auto. intros t0 op0 r0 [E|Hin]; [|exact (HD' _ _ _ Hin)]. injection E as <- <- <-. exact F7.
    - destruct (Forall_nth_error HS Ht).
    - pose proof (fun f => cnt_upd f (Ready ecv l op k) Ht) as U. cbn [kw] in U.
      constructor; cbn [sh thr hist]; auto.
      + intros x. specialize (U (fx x)). specialize (HX x). lia.
      + intros i. specialize (U (bw i)). specialize (HW i). lia.
      + apply Forall_upd; auto. exact (proj1 (Forall_nth_error HS Ht)).
      + apply Forall_upd; auto. exact (Forall_nth_error HA Ht).
  Qed.
  Lemma Inv_reachable n c : reachable P n ex0 tt c -> Inv c.
  Proof.
    apply (reachable_inv P Inv).
    - constructor; cbn [sh thr hist init]; auto; try (intros; rewrite cnt_repeat; reflexivity); try (simpl; lia); try congruence.
      + constructor; try reflexivity. left; split; reflexivity.
      + apply Forall_forall; intros x Hx; apply repeat_spec in Hx; subst; exact I.
      + apply Forall_forall; intros x Hx; apply repeat_spec in Hx; subst; exact I.
    - intros c0 c1. apply Inv_step.
  Qed.
  Lemma no_crash n c : reachable P n ex0 tt c -> ~ In (Crashed ek eop ecv unit) (thr c).
  Proof. intros Hr Hin. pose proof (v_st (Inv_reachable Hr)) as H. rewrite Forall_forall in H. exact (H _ Hin). Qed.

  Lemma settled_no_run n c x : reachable P n ex0 tt c -> quiescent c -> cnt (fx x) (thr c) = 0.
  Proof.
    intros Hr Hq. apply sumw_zero. intros y Hin. apply In_nth_error in Hin as [i Hi].
    destruct (quiescent_settled Hq Hi) as [(l & ->)|(l & op & cv & k & ->)]; [reflexivity|].
    destruct (Forall_nth_error (v_st (Inv_reachable Hr)) Hi) as [_ H]. destruct cv, k; try contradiction; reflexivity.
  Qed.
  (** at rest, with at least one worker never interrupted: everything accepted has ended *)
  Lemma rest_all n c : reachable P n ex0 tt c -> quiescent c -> al ODestroy = false -> 0 < nw (sh c) -> begun (sh c) = rev (seq 0 (accepted (sh c))) /\ forall x, occ (ended (sh c)) x = occ (begun (sh c)) x.
  Proof.
    intros Hr Hq Hd Hn. destruct (Inv_reachable Hr) as [HQ HX HN HW HS HA HE HI HD]. split.
    - assert (Hst : dv_stored (q (sh c)) = []).
      { specialize (HW 0). assert (E : (0 <? nw (sh c)) = true) by (apply Nat.ltb_lt; lia). rewrite E in HW. cbn in HW.
        destruct (wend (sh c)) as [|w ws] eqn:Ew; [|apply HE; [congruence|auto]]. simpl in HW.
        assert (Hp : 0 < cnt (bw 0) (thr c)) by lia. apply sumw_pos in Hp as (i & y & Hi & Hy).
        destruct (quiescent_settled Hq Hi) as [(l & ->)|(l & op & cv & k & ->)]; [simpl in Hy; lia|].
        destruct (Forall_nth_error HS Hi) as [_ H]. cbn in Hy. destruct cv, k; try contradiction; simpl in Hy; try lia. apply H. }
      rewrite (q_st HQ) in Hst. destruct (accepted (sh c) - length (begun (sh c))) eqn:E; [|discriminate]. pose proof (q_le HQ).
      replace (accepted (sh c)) with (length (begun (sh c))) by lia. apply HQ.
    - intros x. specialize (HX x). rewrite (settled_no_run x Hr Hq) in HX. lia.
  Qed.
End Inv.
