(** * Lemmas for EX_Props.v *)
From Verif Require Import SQ_Model SQ_Spec SQ_Proofs.
From Verif Require Export EX_Spec EX_Proofs.
Set Implicit Arguments.

Section More.
  Variables (W : nat) (al : eop -> bool).
  Hypothesis Hal : al ORunQueued = false.
  Notation P := (exprog W al).

  Lemma runs_cnt s x l : Forall (stat W s) l -> runs x l = cnt (fx x) l.
  Proof.
    unfold runs, cnt. induction 1 as [|y l Hy Hl IH]; auto. simpl. rewrite count_occ_app, IH. f_equal.
    destruct y as [u|u op k|u op cv k|u ns|]; try (destruct k; reflexivity); try reflexivity. destruct Hy as [_ Hb]. destruct cv, k; try contradiction; reflexivity.
  Qed.
  Lemma in_order n c : reachable P n ex0 tt c -> begun_in_order (sh c).
  Proof. intros Hr. destruct (v_q (Inv_reachable Hal Hr)) as [_ H1 _ H2]. exists (length (begun (sh c))). split; auto. rewrite H2 at 1. now rewrite rev_involutive. Qed.
  Lemma begun_le1 n c x : reachable P n ex0 tt c -> occ (begun (sh c)) x <= 1.
  Proof.
    intros Hr. destruct (v_q (Inv_reachable Hal Hr)) as [_ _ _ H2]. rewrite H2. rewrite count_occ_rev. apply NoDup_count_occ. apply seq_NoDup.
  Qed.
  Lemma conserve n c x : reachable P n ex0 tt c -> occ (ended (sh c)) x + runs x (thr c) = occ (begun (sh c)) x.
  Proof. intros Hr. destruct (Inv_reachable Hal Hr) as [_ HX _ _ HS _ _ _ _]. rewrite (runs_cnt x HS). apply HX. Qed.
  Lemma all_begun s : qinv s -> dv_stored (q s) = [] -> rev (begun s) = seq 0 (accepted s).
  Proof.
    intros HQ Hst. rewrite (q_st HQ) in Hst. destruct (accepted s - length (begun s)) eqn:E; [|discriminate]. pose proof (q_le HQ).
    replace (accepted s) with (length (begun s)) by lia. rewrite (q_bg HQ) at 1. now rewrite rev_involutive.
  Qed.
  Lemma unended n c x : reachable P n ex0 tt c -> In x (begun (sh c)) -> In x (ended (sh c)) \/
    exists t u op b stk, nth_error (thr c) t = Some (Ready ecv u op (KRun b stk)) /\ In x stk.
  Proof.
    intros Hr Hb. destruct (Inv_reachable Hal Hr) as [_ HX _ _ HS _ _ _ _]. specialize (HX x).
    apply (count_occ_In Nat.eq_dec) in Hb. destruct (Nat.eq_dec (occ (ended (sh c)) x) 0) as [E|E].
    - right. assert (Hp : 0 < cnt (fx x) (thr c)) by lia. apply sumw_pos in Hp as (i & y & Hi & Hy).
      pose proof (Forall_nth_error HS Hi) as Hs. destruct y as [u|u op k|u op cv k|u ns|]; simpl in Hy; try lia.
      + destruct k; unfold fx in Hy; simpl in Hy; try lia. exists i, u, op, b, stk. split; auto. apply (count_occ_In Nat.eq_dec). lia.
      + destruct Hs as [_ Hs]. destruct cv, k; try contradiction; unfold fx in Hy; simpl in Hy; lia.
    - left. apply (count_occ_In Nat.eq_dec). lia.
  Qed.
  (** all the workers have returned: no worker runs a closure *)
  Lemma no_worker n c : reachable P n ex0 tt c -> (forall i, i < W -> In i (wend (sh c))) -> forall t u b stk, nth_error (thr c) t <> Some (Ready ecv u OWork (KRun b stk)).
  Proof.
    intros Hr Hw t u b stk Ht. destruct (Inv_reachable Hal Hr) as [_ _ HN HW HS _ _ _ _].
    pose proof (Forall_nth_error HS Ht) as [H1 H2]. destruct b as [i| | | |d]; try discriminate; try (exact H1). cbn in H1.
    specialize (HW i). pose proof (cnt_ge (bw i) _ _ Ht) as G. cbn in G. rewrite Nat.eqb_refl in G. cbn in G.
    specialize (Hw i H1). apply (count_occ_In Nat.eq_dec) in Hw. destruct (i <? nw (sh c)); cbn in HW; lia.
  Qed.
  Lemma runner_op n c t u op b stk : reachable P n ex0 tt c -> nth_error (thr c) t = Some (Ready ecv u op (KRun b stk)) -> al op = true /\ (op = OWork \/ op = OTry \/ op = OLoop).
  Proof.
    intros Hr Ht. destruct (Inv_reachable Hal Hr) as [_ _ _ _ HS HA _ _ _]. pose proof (Forall_nth_error HS Ht) as [_ H]. pose proof (Forall_nth_error HA Ht) as H'. cbn in H, H'.
    split; auto. destruct b; auto.
  Qed.
  Lemma rest_of n c : reachable P n ex0 tt c -> (forall i, i < W -> In i (wend (sh c))) -> al OLoop = false -> forall x, In x (begun (sh c)) -> In x (ended (sh c)) \/ run_by OTry x (thr c).
  Proof.
    intros Hr Hw Hl x Hx. destruct (unended x Hr Hx) as [|(t & u & op & b & stk & Ht & Hin)]; auto. right.
    destruct (runner_op _ Hr Ht) as [Ha [ -> | [ -> | -> ] ]]; [destruct (no_worker Hr Hw _ Ht)| |congruence]. exists t, u, b, stk. auto.
  Qed.
  Lemma after_join n c t r : reachable P n ex0 tt c -> 0 < W -> al ODestroy = false -> al OLoop = false -> In (EDone t OJoin r) (hist c) ->
    cl (sh c) = true /\ rev (begun (sh c)) = seq 0 (accepted (sh c)) /\ forall x, x < accepted (sh c) -> In x (ended (sh c)) \/ run_by OTry x (thr c).
  Proof.
    intros Hr HW Hd Hl Hin. pose proof (Inv_reachable Hal Hr) as I. pose proof (v_done I _ _ _ Hin) as D. cbn in D.
    assert (Hne : wend (sh c) <> []) by (intros E; specialize (D 0 HW); rewrite E in D; destruct D).
    destruct (v_end I Hne (v_intr I Hd)) as [E1 E2]. pose proof (all_begun (v_q I) E2) as E3. split; [auto|]. split; auto. intros x Hx.
    apply (rest_of Hr D Hl). apply in_rev. rewrite E3. apply in_seq. lia.
  Qed.
  Lemma after_destroy n c t r : reachable P n ex0 tt c -> al OLoop = false -> In (EDone t ODestroy r) (hist c) ->
    cl (sh c) = true /\ forall x, In x (begun (sh c)) -> In x (ended (sh c)) \/ run_by OTry x (thr c).
  Proof.
    intros Hr Hl Hin. pose proof (v_done (Inv_reachable Hal Hr) _ _ _ Hin) as [D1 D2]. split; auto. apply (rest_of Hr D2 Hl).
  Qed.
  Lemma after_loop n c t r : reachable P n ex0 tt c -> In (EDone t OLoop r) (hist c) ->
    cl (sh c) = true /\ rev (begun (sh c)) = seq 0 (accepted (sh c)).
  Proof. intros Hr Hin. pose proof (Inv_reachable Hal Hr) as I. pose proof (v_done I _ _ _ Hin) as [D1 D2]. split; auto. apply (all_begun (v_q I) D2). Qed.

  (** submit refuses exactly when the executor is closed *)
  Lemma submit_once n c h2 t r h1 : reachable P n ex0 tt c -> hist c = h2 ++ EDone t OSubmit r :: h1 ->
    (r = ROk \/ r = RThrow) /\ ((exists t' r', In (EDone t' OClose r') h1) -> r = RThrow) /\ (r = RThrow -> cl (sh c) = true).
  Proof.
    intros Hr E. destruct (event_step P _ _ _ Hr E) as (c1 & lb & c2 & Hr1 & Hst & Eh1 & Eh2 & Hrun).
    apply step_inv in Hst. pose proof (Inv_reachable Hal Hr1) as I1.
    assert (K : (r = ROk \/ r = RThrow) /\ (cl (sh c1) = true -> r = RThrow)).
    { destruct Hst as
       [t0 l op Ht Hp ->|t0 ps e l op k s' ns o thr' Ht Hfr Hd ->|t0 p l m ns thr' Ht Hd ->
       |t0 l op cv k Ht ->|t0 l op cv k k' Ht Hk ->|t0 l op cv k k' Ht Hk ->|t0 l op k k' Ht Hk ->]; cbn [hist] in Eh2; rewrite ?Eh1 in Eh2; try discriminate Hk;
      try (exfalso; apply (f_equal (@length _)) in Eh2; simpl in Eh2; lia); try discriminate Eh2.
      pose proof (Forall_nth_error (v_st I1) Ht) as Hk. cbn [stat] in Hk. cbn [frag exprog] in Hfr.
      destruct o; cbn [after fst snd] in Eh2; try (exfalso; apply (f_equal (@length _)) in Eh2; simpl in Eh2; lia); injection Eh2 as -> -> ->.
      all: destruct k as [op'|b|b|b stk| |i|i]; cbn in Hk; try (destruct b; destruct Hk as [? Hk]; try contradiction); try discriminate; try (destruct Hk; discriminate).
      all: destruct Hk as [-> Hk]; cbn [efrag] in Hfr; destruct (cl (sh c1)); inversion Hfr; subst; auto; split; auto; discriminate. }
    split; [apply K|]. split.
    - intros (t' & r' & Hin). apply K. rewrite <- Eh1 in Hin. exact (v_done I1 _ _ _ Hin).
    - intros ->. assert (Hin : In (EDone t OSubmit RThrow) (hist c)) by (rewrite E; apply in_elt). exact (v_done (Inv_reachable Hal Hr) _ _ _ Hin eq_refl).
  Qed.
  Lemma frag_sub t a k s s' ns o op : efrag W t a k s = (s', ns, o) -> okk W s op k -> accepted s <= accepted s' /\ (o = ORet ek ecv ROk -> op = OSubmit -> accepted s' = S (accepted s)).
  Proof.
    intros Hf Hk. split.
    - unfold efrag, go_on, pull_run, worker_ends in Hf. repeat match type of Hf with (match ?x with _ => _ end) = _ => destruct x end; inversion Hf; subst; cbn; lia.
    - intros -> ->. destruct k as [op'|b|b|b stk| |i|i]; cbn in Hk; try (destruct b; destruct Hk as [? Hk]; try contradiction); try discriminate; try (destruct Hk; discriminate).
      destruct Hk as [-> Hk]; cbn [efrag] in Hf; destruct (cl s); inversion Hf; subst; reflexivity.
  Qed.
  Lemma submits_le n c : reachable P n ex0 tt c -> submits (hist c) <= accepted (sh c).
  Proof.
    enough (reachable P n ex0 tt c -> Inv W al c /\ submits (hist c) <= accepted (sh c)) by tauto.
    apply (reachable_inv P (fun c => Inv W al c /\ submits (hist c) <= accepted (sh c))); [split; [apply (Inv_reachable Hal (n := n)); exists []; reflexivity|apply Nat.le_refl]|].
    clear c. intros c c' [I H] Hs. split; [exact (Inv_step Hal I Hs)|]. destruct Hs as
     [t l op Ht Hp ->|t ps e l op k s' ns o thr' Ht Hfr Hd ->|t p l m ns thr' Ht Hd ->
     |t l op cv k Ht ->|t l op cv k k' Ht Hk ->|t l op cv k k' Ht Hk ->|t l op k k' Ht Hk ->]; try discriminate Hk; cbn [sh hist]; auto.
    destruct (frag_sub _ _ _ _ op Hfr (Forall_nth_error (v_st I) Ht)) as [F1 F2]. destruct o as [r|r ns'|cv k'|k'|]; cbn [after fst snd]; try lia.
    - destruct op; try (unfold submits in *; simpl; lia). destruct r; unfold submits in *; simpl; try lia. specialize (F2 eq_refl eq_refl). lia.
    - exfalso. destruct (frag_s _ _ _ _ op Hfr (Forall_nth_error (v_st I) Ht) (v_q I)) as [[] _].
  Qed.
End More.
