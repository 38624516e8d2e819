(** * Proofs about the sync_queue family *)

From Coq Require Import Permutation.
From Verif Require Import MonitorLemmas Settle SQ_Model SQ_Spec.
Set Implicit Arguments.

Section SQ.
  Variables V D : Type.
  Variable ct : container V D.
  Variable take : list V -> V -> list V -> Prop.
  Variable holds : D -> list V -> Prop.
  Variable mv : bool.

  Notation sq := (sq D). Notation qop := (qop V). Notation qres := (qres V D). Notation qk := (qk V).
  Notation tst := (tstat qk qop scv unit).
  Notation conf := (cfg sq qk qop qres scv unit).
  Implicit Types (s : sq).

  Record ct_ok : Prop := {
    ok_new : holds (d_new ct) [];
    ok_empty : forall d l, holds d l -> (d_empty ct d = true <-> l = []);
    ok_size : forall d l, holds d l -> d_size ct d = (Z.of_nat (length l) mod 2 ^ 64)%Z;
    ok_push : forall x d l, holds d l -> holds (d_push ct x d) (l ++ [x]);
    ok_pull : forall d l, holds d l -> l <> [] ->
      exists v d' l', d_pull ct d = Some (v, d') /\ take l v l' /\ holds d' l';
    ok_moved : forall d l, mv = true -> holds d l -> holds (d_moved ct d) []
  }.
  Hypothesis ok : ct_ok.

  Definition kfit (op : qop) (k : qk) : Prop :=
    match k with
    | KGo op' => op' = op
    | KWait op' => op' = op /\ In op [QPull; QWaitPull; QPullUntil]
    | KTimedOut => op = QPullUntil
    | KIntr => In op [QPull; QWaitPull; QPullUntil]
    end.

  Definition repr (s : sq) (q : uq V) : Prop := holds (q_data s) (u_items q) /\ q_cl s = u_closed q.

  (** What a fragment does, in terms of the specification. *)
  Definition frag_post (op : qop) (s s' : sq) (q : uq V) (ns : list (notif scv)) (o : outcome qk scv qres) : Prop :=
    match o with
    | ORet _ _ r => (exists q', uq_step take holds q op r q' /\ repr s' q') /\
        (ns = [NAll Cond] \/ ns = [] /\
           (d_empty ct (q_data s) = true -> d_empty ct (q_data s') = true) /\ q_cl s' = q_cl s)
    | OFin _ r ns' => (exists q', uq_step take holds q op r q' /\ repr s' q') /\
        ns = [] /\ ns' = [NAll Cond]
    | OSleep _ _ k => s' = s /\ ns = [] /\ kfit op k /\ d_empty ct (q_data s) = true /\ q_cl s = false
    | OYield _ _ _ => False
    | OUB _ _ _ => False
    end.

  Lemma empty_spec s q : repr s q ->
    (d_empty ct (q_data s) = true /\ u_items q = []) \/
    (d_empty ct (q_data s) = false /\ u_items q <> []).
  Proof.
    intros (Hh & _). pose proof (ok_empty ok Hh) as He.
    destruct (d_empty ct (q_data s)) eqn:E.
    - left; split; auto. apply He; auto.
    - right; split; auto. intros H. apply He in H. congruence.
  Qed.

  Lemma do_pull_post op s q :
    repr s q -> u_items q <> [] -> In op [QPull; QTryPull; QWaitPull; QNBPull; QPullUntil] ->
    d_empty ct (q_data s) = false ->
    let '(s', ns, o) := do_pull ct s in frag_post op s s' q ns o.
  Proof.
    intros (Hh & Hc) Hne Hop He. unfold do_pull.
    destruct (ok_pull ok Hh Hne) as (v & d' & l' & Hp & Ht & Hh').
    rewrite Hp. simpl. split.
    - exists (MkU l' (u_closed q)). split.
      + eapply u_pull; eauto.
      + split; simpl; auto.
    - right. repeat split; auto. rewrite He. discriminate.
  Qed.

  Ltac solve_in := simpl; auto 10.

  Lemma after_wait_post op s q :
    repr s q -> In op [QPull; QWaitPull; QPullUntil] -> not_empty_or_closed ct s = true ->
    let '(s', ns, o) := after_wait ct op s in frag_post op s s' q ns o.
  Proof.
    intros Hr Hop Hn. unfold after_wait, not_empty_or_closed in *.
    destruct (empty_spec Hr) as [(He & Hi)|(He & Hi)]; rewrite He in *; simpl in *.
    - destruct Hop as [ <- |[ <- |[ <- |[]]]]; rewrite ?Hn; simpl;
      (split; [exists q; split; [eapply u_pull_closed; [intuition eauto 8| auto | destruct Hr; congruence]|auto]|]); auto.
    - apply do_pull_post; auto. destruct Hop as [ <- |[ <- |[ <- |[]]]]; solve_in.
  Qed.

  Lemma wait_loop_post op s q :
    repr s q -> In op [QPull; QWaitPull; QPullUntil] ->
    let '(s', ns, o) := wait_loop ct op s in frag_post op s s' q ns o.
  Proof.
    intros Hr Hop. unfold wait_loop. destruct (not_empty_or_closed ct s) eqn:E.
    - apply after_wait_post; auto.
    - unfold not_empty_or_closed in E. apply orb_false_iff in E. destruct E as [E1 E2].
      apply negb_false_iff in E1. simpl. intuition.
  Qed.

  Lemma try_pull_post op s q :
    repr s q -> op = QTryPull \/ op = QNBPull ->
    let '(s', ns, o) := sq_try_pull ct s in frag_post op s s' q ns o.
  Proof.
    intros Hr Hop. unfold sq_try_pull.
    destruct (empty_spec Hr) as [(He & Hi)|(He & Hi)]; rewrite He.
    - simpl. split; auto. exists q; split; auto. destruct (q_cl s) eqn:E; destruct Hr as (_ & Hc).
      + apply u_pull_closed; auto; [intuition (subst; eauto 8)|congruence].
      + apply u_empty; auto; [intuition (subst; eauto 8)|congruence].
    - apply do_pull_post; auto. destruct Hop; subst; solve_in.
  Qed.

  Lemma do_push_post op s q x r :
    repr s q -> u_closed q = false ->
    (op, r) = (QPush x, QVoid) \/ (op, r) = (QTryPush x, QSt qs_success) \/
    (op, r) = (QWaitPush x, QSt qs_success) \/ (op, r) = (QNBPush x, QSt qs_success) ->
    let '(s', ns, o) := do_push ct s x r in frag_post op s s' q ns o.
  Proof.
    intros (Hh & Hc) Ho Hop. simpl. split; auto.
    exists (MkU (u_items q ++ [x]) false). split; [eapply u_push; eauto|].
    split; simpl; [apply (ok_push ok); auto|congruence].
  Qed.

  Lemma try_push_post op s q x :
    repr s q -> op = QTryPush x \/ op = QWaitPush x \/ op = QNBPush x ->
    let '(s', ns, o) := sq_try_push ct s x in frag_post op s s' q ns o.
  Proof.
    intros Hr Hop. unfold sq_try_push. destruct (q_cl s) eqn:E.
    - simpl. split; auto. exists q; split; auto. eapply u_push_closed with (x := x).
      + intuition (subst; eauto 8).
      + destruct Hr; congruence.
    - apply do_push_post; auto; [destruct Hr; congruence|]. intuition (subst; eauto 8).
  Qed.

  Lemma frag_ok t busy op k s q :
    repr s q -> kfit op k -> q_pre mv tt op = true ->
    let '(s', ns, o) := qfrag ct t busy k s in frag_post op s s' q ns o.
  Proof.
    intros Hr Hk Hpre. destruct k as [op'|op'| |]; simpl in Hk; unfold qfrag.
    - subst op'. destruct op; simpl.
      + unfold sq_push. destruct (q_cl s) eqn:E.
        * simpl. split; auto. exists q; split; auto. eapply u_push_closed; [eauto|destruct Hr; congruence].
        * apply do_push_post; auto. destruct Hr; congruence.
      + apply try_push_post; auto.
      + apply try_push_post; auto.
      + destruct busy.
        * simpl. split; auto. exists q; split; auto. apply u_busy. left; eauto.
        * apply try_push_post; auto.
      + apply wait_loop_post; solve_in.
      + apply try_pull_post; auto.
      + apply wait_loop_post; solve_in.
      + destruct busy.
        * simpl. split; auto. exists q; split; auto. apply u_busy. auto.
        * apply try_pull_post; auto.
      + apply wait_loop_post; solve_in.
      + split; auto. exists (MkU (u_items q) true). split; [apply u_close|]. destruct Hr; split; auto.
      + split; auto. exists q; split; auto. destruct Hr as (_ & ->). apply u_is_closed.
      + split; auto. exists q; split; auto. apply u_is_empty. destruct Hr as (Hh & _). apply (ok_empty ok Hh).
      + split; auto. exists q; split; auto. apply u_is_full.
      + split; auto. exists q; split; auto. destruct Hr as (Hh & _). rewrite (ok_size ok Hh). apply u_size.
      + destruct Hr as (Hh & Hc). split.
        * exists (MkU [] (u_closed q)). split; [apply u_underlying; auto|]. split; simpl; auto.
          eapply (ok_moved ok); eauto.
        * right. repeat split; auto. intros _. simpl.
          apply (ok_empty ok (ok_moved ok Hpre Hh)). auto.
    - destruct Hk as (-> & Hin). apply wait_loop_post; auto.
    - subst op. unfold timed_out. destruct (not_empty_or_closed ct s) eqn:E.
      + apply after_wait_post; solve_in.
      + unfold not_empty_or_closed in E. apply orb_false_iff in E. destruct E as [E1 E2].
        apply negb_false_iff in E1. simpl. split; auto. exists q; split; auto.
        destruct (empty_spec Hr) as [(He & Hi)|(He & Hi)]; [|congruence].
        apply u_empty; auto. destruct Hr; congruence.
    - simpl. split; auto. exists q; split; auto. apply u_intr; auto.
  Qed.

  Definition tfit (x : tst) : Prop :=
    match x with
    | Idle _ _ _ _ => True
    | Ready _ _ op k => kfit op k /\ q_pre mv tt op = true
    | Asleep _ op _ k => kfit op k /\ q_pre mv tt op = true
    | Tail _ _ _ ns => ns = [NAll Cond]
    | Crashed _ _ _ _ => False
    end.

  Definition pendt (x : tst) : nat := match x with Tail _ _ _ _ => 1 | _ => 0 end.
  Definition slp (x : tst) : nat := match x with Asleep _ _ _ _ => 1 | _ => 0 end.

  Definition QInv (c : conf) : Prop :=
    Forall tfit (thr c) /\
    (exists q, uq_history take holds (hist c) q /\ repr (sh c) q) /\
    (0 < sumw slp (thr c) ->
       d_empty ct (q_data (sh c)) = true /\ q_cl (sh c) = false \/ 0 < sumw pendt (thr c)).

  Lemma kfit_wake op k k' : kfit op k -> q_on_timeout k = Some k' -> kfit op k'.
  Proof. destruct k; simpl; try discriminate. destruct op0; try discriminate. intros (<- & _) [= <-]. reflexivity. Qed.
  Lemma kfit_intr op k k' : kfit op k -> q_on_intr k = Some k' -> kfit op k'.
  Proof.
    destruct k; simpl; try discriminate.
    - intros (_ & H) [= <-]. exact H.
    - intros -> [= <-]. simpl; auto.
  Qed.

  Lemma all_asleep_cond (x : tst) : asleep_on (sqprog ct mv) Cond x = true <-> slp x = 1.
  Proof. destruct x as [| |? ? [] ?| |]; simpl; split; intros; auto; discriminate. Qed.

  Lemma wake_all_slp (l : list tst) : sumw slp (map (wake_if (sqprog ct mv) Cond) l) = 0.
  Proof.
    induction l as [|x l IH]; auto.
    change (sumw slp (map (wake_if (sqprog ct mv) Cond) (x :: l))) with
      (slp (wake_if (sqprog ct mv) Cond x) + sumw slp (map (wake_if (sqprog ct mv) Cond) l)).
    rewrite IH. destruct x as [| |? ? [] ?| |]; reflexivity.
  Qed.

  Lemma wake_if_tfit x : tfit x -> tfit (wake_if (sqprog ct mv) Cond x).
  Proof. destruct x as [| |? ? [] ?| |]; auto. Qed.

  Lemma wake_all_tfit l : Forall tfit l -> Forall tfit (map (wake_if (sqprog ct mv) Cond) l).
  Proof. intros H. apply Forall_map. eapply Forall_impl; [|exact H]. apply wake_if_tfit. Qed.

  Lemma wake_all_pend l : sumw pendt (map (wake_if (sqprog ct mv) Cond) l) = sumw pendt l.
  Proof.
    induction l as [|x l IH]; auto.
    change (pendt (wake_if (sqprog ct mv) Cond x) + sumw pendt (map (wake_if (sqprog ct mv) Cond) l) = pendt x + sumw pendt l).
    rewrite IH. destruct x as [| |? ? [] ?| |]; reflexivity.
  Qed.

  Lemma wake_all_nth l t x : nth_error l t = Some x ->
    nth_error (map (wake_if (sqprog ct mv) Cond) l) t = Some (wake_if (sqprog ct mv) Cond x).
  Proof. intros H. rewrite nth_error_map, H. reflexivity. Qed.

  Lemma QInv_init n : QInv (init _ _ _ _ n (sq_new ct) tt).
  Proof.
    split; [|split].
    - simpl. apply Forall_forall. intros x Hx. apply repeat_spec in Hx. subst. exact I.
    - exists (MkU [] false). split; [constructor|]. split; simpl; auto. apply (ok_new ok).
    - simpl. rewrite sumw_repeat. simpl. lia.
  Qed.

  Lemma QInv_step c c' : QInv c -> stepcase (sqprog ct mv) c c' -> QInv c'.
  Proof.
    intros (HT & (q & Hq & Hr) & HW) Hs.
    destruct Hs as
     [t l op Ht Hp ->|t ps e l op k s' ns o thr' Ht Hfr Hd ->|t p l n ns thr' Ht Hd ->
     |t l op cv k Ht ->|t l op cv k k' Ht Hk ->|t l op cv k k' Ht Hk ->|t l op k k' Ht Hk ->];
    unfold QInv; simpl in *; pose proof (Forall_nth_error HT Ht) as Hx; simpl in Hx.
    - split; [|split].
      + apply Forall_upd; auto. simpl. split; auto. 
      + exists q; split; auto. constructor; auto.
      + pose proof (sumw_upd slp (Ready scv l op (KGo op)) Ht) as E1.
        pose proof (sumw_upd pendt (Ready scv l op (KGo op)) Ht) as E2. simpl in E1, E2. intros H.
        destruct HW as [HW|HW]; [lia|left; auto|right; lia].
    - destruct Hx as (Hk & Hpre). pose proof (@frag_ok t e op k (sh c) q Hr Hk Hpre) as HF.
      rewrite Hfr in HF.
      destruct o as [r|r ns'|cv k'|k'|]; simpl in HF; try contradiction; simpl.
      + destruct HF as ((q' & Hst & Hr') & Hns). 
        destruct Hns as [-> |(-> & He & Hc)].
        * simpl in Hd. injection Hd as <-.
          pose proof (wake_all_nth _ _ Ht) as Ht'. simpl in Ht'.
          split; [|split].
          -- apply Forall_upd; [apply wake_all_tfit; auto|exact I].
          -- exists q'; split; auto. econstructor; eauto.
          -- pose proof (sumw_upd slp (Idle qk qop scv l) Ht') as E1. simpl in E1.
             rewrite wake_all_slp in E1. lia.
        * simpl in Hd. injection Hd as <-. split; [|split].
          -- apply Forall_upd; auto; exact I.
          -- exists q'; split; auto. econstructor; eauto.
          -- pose proof (sumw_upd slp (Idle qk qop scv l) Ht) as E1.
             pose proof (sumw_upd pendt (Idle qk qop scv l) Ht) as E2. simpl in E1, E2. intros H.
             destruct HW as [(H1 & H2)|HW]; [lia|left; rewrite Hc; auto|right; lia].
      + destruct HF as ((q' & Hst & Hr') & -> & ->). simpl in Hd. injection Hd as <-. simpl.
        split; [|split].
        * apply Forall_upd; auto. reflexivity.
        * exists q'; split; auto. econstructor; eauto.
        * intros _. right. pose proof (sumw_upd pendt (Tail qk qop l [NAll Cond]) Ht) as E2.
          simpl in E2. lia.
      + destruct HF as (-> & -> & Hk' & He & Hc). simpl in Hd. injection Hd as <-. simpl.
        split; [|split].
        * apply Forall_upd; auto. simpl; auto.
        * exists q; auto.
        * intros _. left; auto.
    - subst. injection Hx as -> ->. simpl in Hd. injection Hd as <-. simpl.
      pose proof (wake_all_nth _ _ Ht) as Ht'. simpl in Ht'.
      split; [|split].
      + apply Forall_upd; [apply wake_all_tfit; auto|exact I].
      + exists q; auto.
      + pose proof (sumw_upd slp (Idle qk qop scv l) Ht') as E1. simpl in E1.
        rewrite wake_all_slp in E1. lia.
    - split; [|split].
      + apply Forall_upd; auto.
      + exists q; auto.
      + pose proof (sumw_upd slp (Ready scv l op k) Ht) as E1.
        pose proof (sumw_upd pendt (Ready scv l op k) Ht) as E2. simpl in E1, E2. intros H.
        destruct HW as [HW|HW]; [lia|left; auto|right; lia].
    - split; [|split].
      + apply Forall_upd; auto. simpl. destruct Hx. split; auto. eapply kfit_wake; eauto.
      + exists q; auto.
      + pose proof (sumw_upd slp (Ready scv l op k') Ht) as E1.
        pose proof (sumw_upd pendt (Ready scv l op k') Ht) as E2. simpl in E1, E2. intros H.
        destruct HW as [HW|HW]; [lia|left; auto|right; lia].
    - split; [|split].
      + apply Forall_upd; auto. simpl. destruct Hx. split; auto. eapply kfit_intr; eauto.
      + exists q; auto.
      + pose proof (sumw_upd slp (Ready scv l op k') Ht) as E1.
        pose proof (sumw_upd pendt (Ready scv l op k') Ht) as E2. simpl in E1, E2. intros H.
        destruct HW as [HW|HW]; [lia|left; auto|right; lia].
    - split; [|split].
      + apply Forall_upd; auto. simpl. destruct Hx. split; auto. eapply kfit_intr; eauto.
      + exists q; auto.
      + pose proof (sumw_upd slp (Ready scv l op k') Ht) as E1.
        pose proof (sumw_upd pendt (Ready scv l op k') Ht) as E2. simpl in E1, E2. intros H.
        destruct HW as [HW|HW]; [lia|left; auto|right; lia].
  Qed.

  Lemma QInv_reachable n c : reachable (sqprog ct mv) n (sq_new ct) tt c -> QInv c.
  Proof. apply reachable_inv with (Inv := QInv); [apply QInv_init|apply QInv_step]. Qed.

  Lemma sq_no_crash n c : reachable (sqprog ct mv) n (sq_new ct) tt c -> ~ In (Crashed qk qop scv unit) (thr c).
  Proof.
    intros H Hin. destruct (QInv_reachable H) as (HT & _). rewrite Forall_forall in HT. exact (HT _ Hin).
  Qed.

  Lemma history_closed h q : uq_history take holds h q -> (u_closed q = true <-> q_closed_in h).
  Proof.
    induction 1 as [|t op h q Hh IH|t op r h q q' Hh IH Hst].
    - simpl. split; [discriminate|]. intros (t & r & []).
    - rewrite IH. split; intros (t' & r & Hi); exists t', r; [right; auto|destruct Hi as [Hi|Hi]; [discriminate|auto]].
    - assert (G : u_closed q' = true <-> u_closed q = true \/ op = QClose).
      { inversion Hst; subst; simpl in *;
        repeat match goal with
        | H : _ \/ _ |- _ => destruct H
        | H : False |- _ => contradiction
        | H : exists _, _ |- _ => destruct H
        | H : (_, _) = (_, _) |- _ => injection H as -> ->
        end; subst; (split; [intros Hc; first [discriminate Hc|left; exact Hc|right; reflexivity]|
                             intros [Hc|Hc]; first [exact Hc|congruence|discriminate Hc|reflexivity]]). }
      rewrite G, IH. split.
      + intros [(t' & r' & Hi)|Ho]; [exists t', r'; right; auto|subst; exists t, r; left; auto].
      + intros (t' & r' & [Hi|Hi]); [right; congruence|left; exists t', r'; auto].
  Qed.

  Lemma sq_direct : direct (sqprog ct mv).
  Proof.
    intros t e k s s' ns o Hf. 
    enough (G : match qfrag ct t e k s with (_, ns, o) => match o with OSleep _ _ _ => ns = [] | OYield _ _ _ => False | _ => True end end).
    { simpl in Hf. rewrite Hf in G. destruct o; auto. }
    clear s' ns o Hf.
    assert (HP : forall s, match do_pull ct s with (_, ns, o) => match o with OSleep _ _ _ => ns = [] | OYield _ _ _ => False | _ => True end end).
    { intros s1. unfold do_pull. destruct (d_pull ct (q_data s1)) as [[v d]|]; simpl; auto. }
    assert (HA : forall op s, match after_wait ct op s with (_, ns, o) => match o with OSleep _ _ _ => ns = [] | OYield _ _ _ => False | _ => True end end).
    { intros op s1. unfold after_wait. destruct (negb _); [apply HP|]. destruct op; simpl; auto. destruct (q_cl s1); [exact I|apply HP]. }
    assert (HL : forall op s, match wait_loop ct op s with (_, ns, o) => match o with OSleep _ _ _ => ns = [] | OYield _ _ _ => False | _ => True end end).
    { intros op s1. unfold wait_loop. destruct (not_empty_or_closed ct s1); [apply HA|simpl; auto]. }
    assert (HY : forall s, match sq_try_pull ct s with (_, ns, o) => match o with OSleep _ _ _ => ns = [] | OYield _ _ _ => False | _ => True end end).
    { intros s1. unfold sq_try_pull. destruct (d_empty ct (q_data s1)); [simpl; auto|apply HP]. }
    destruct k as [op|op| |]; simpl; auto.
    - destruct op; simpl; auto; try apply HL; unfold sq_push, sq_try_push.
      all: try (destruct (q_cl s); simpl; auto; fail).
      all: try apply HY; (destruct e; [exact I|]); try apply HY; destruct (q_cl s); simpl; auto.
    - apply HL.
    - unfold timed_out. destruct (not_empty_or_closed ct s); [apply HA|simpl; auto].
  Qed.

End SQ.

(** A weaker notion of [holds] gives a weaker specification. *)
Lemma uq_history_mono {V D} take (h1 h2 : D -> list V -> Prop) h q :
  (forall d l, h1 d l -> h2 d l) -> uq_history take h1 h q -> uq_history take h2 h q.
Proof.
  intros Hm. induction 1 as [|t op h q Hh IH|t op r h q q' Hh IH Hst].
  - constructor.
  - constructor; auto.
  - apply uh_done with q; auto. clear IH Hh. destruct Hst.
    + eapply u_push; eauto.
    + eapply u_push_closed; eauto.
    + eapply u_pull; eauto.
    + eapply u_pull_closed; eauto.
    + eapply u_empty; eauto.
    + eapply u_busy; eauto.
    + eapply u_intr; eauto.
    + apply u_close.
    + apply u_is_closed.
    + apply u_is_empty; auto.
    + apply u_is_full.
    + apply u_size.
    + apply u_underlying; auto.
Qed.

(** ** devector *)
Section DV.
  Variable V : Type.
  Implicit Types (d : devector V).

  Definition dv_wf d : Prop :=
    (dv_data d = [] /\ dv_front d = 0) \/ dv_front d < length (dv_data d).
  Definition dv_holds d (l : list V) : Prop := dv_wf d /\ dv_stored d = l.

  Lemma skipn_nth (l : list V) n v : nth_error l n = Some v -> skipn n l = v :: skipn (S n) l.
  Proof.
    revert n; induction l as [|x l IH]; intros [|n] H; simpl in *; try discriminate.
    - congruence.
    - apply IH in H. rewrite H. reflexivity.
  Qed.

  Lemma dv_stored_length d : dv_wf d -> length (dv_stored d) = length (dv_data d) - dv_front d.
  Proof. intros _. unfold dv_stored. apply skipn_length. Qed.

  Lemma dv_empty_spec d : dv_wf d -> (dv_empty d = true <-> dv_stored d = []).
  Proof.
    intros Hw. unfold dv_empty. rewrite Nat.eqb_eq. split.
    - intros H. unfold dv_stored. apply skipn_all2. lia.
    - intros H. apply (f_equal (@length V)) in H. rewrite (dv_stored_length Hw) in H. simpl in H.
      destruct Hw as [(-> & ->)|Hw]; simpl; lia.
  Qed.

  Lemma dv_push_spec x d : dv_wf d -> dv_wf (dv_push_back x d) /\ dv_stored (dv_push_back x d) = dv_stored d ++ [x].
  Proof.
    intros Hw. unfold dv_wf, dv_stored, dv_push_back; simpl. rewrite app_length; simpl. split.
    - right. destruct Hw as [(-> & ->)|Hw]; simpl; lia.
    - rewrite skipn_app. replace (dv_front d - length (dv_data d)) with 0; [reflexivity|].
      destruct Hw as [(-> & ->)|Hw]; simpl; lia.
  Qed.

  Lemma dv_pop_spec d v l : dv_wf d -> dv_stored d = v :: l ->
    dv_at_front d = Some v /\ dv_wf (dv_pop_front d) /\ dv_stored (dv_pop_front d) = l /\
    dv_front (dv_pop_front d) = match l with [] => 0 | _ => S (dv_front d) end.
  Proof.
    intros Hw Hs.
    assert (Hlt : dv_front d < length (dv_data d)).
    { destruct Hw as [(H1 & H2)|Hw]; auto. unfold dv_stored in Hs. rewrite H1, H2 in Hs. discriminate. }
    destruct (nth_error (dv_data d) (dv_front d)) as [v'|] eqn:Hn.
    2:{ apply nth_error_None in Hn. lia. }
    pose proof (skipn_nth _ _ Hn) as Hk. unfold dv_stored in Hs. rewrite Hk in Hs. injection Hs as -> Hl.
    split; [exact Hn|].
    assert (HLl : length l = length (dv_data d) - S (dv_front d)) by (rewrite <- Hl; exact (skipn_length (S (dv_front d)) (dv_data d))).
    assert (Hp : dv_pop_front d = if length (dv_data d) =? S (dv_front d) then MkDV [] 0
                                  else MkDV (dv_data d) (S (dv_front d))) by reflexivity.
    rewrite Hp. destruct (Nat.eqb_spec (length (dv_data d)) (S (dv_front d))) as [He|He].
    - destruct l; [|simpl in HLl; lia]. split; [left; auto|split; reflexivity].
    - destruct l; [simpl in HLl; lia|]. split; [right; simpl; lia|split; [exact Hl|reflexivity]].
  Qed.

  Lemma dv_size_spec d : dv_wf d -> dv_size d = (Z.of_nat (length (dv_stored d)) mod 2 ^ 64)%Z.
  Proof.
    intros Hw. unfold dv_size. rewrite (dv_stored_length Hw). f_equal.
    destruct Hw as [(-> & ->)|Hw]; simpl; [reflexivity|lia].
  Qed.

  Lemma dv_ok : ct_ok (dv_container V) fifo_take dv_holds false.
  Proof.
    constructor; simpl.
    - split; [left; auto|reflexivity].
    - intros d l (Hw & <-). apply dv_empty_spec; auto.
    - intros d l (Hw & <-). apply dv_size_spec; auto.
    - intros x d l (Hw & <-). destruct (dv_push_spec x Hw). split; auto.
    - intros d l (Hw & Hl) Hne. destruct l as [|v l]; [congruence|].
      destruct (dv_pop_spec Hw Hl) as (Hf & Hw' & Hs' & _). exists v, (dv_pop_front d), l.
      unfold dv_pull. rewrite Hf. repeat split; auto.
    - discriminate.
  Qed.

  Lemma fifo_ad (D : Type) (holds : D -> list V -> Prop) h q :
    (forall t r, ~ In (EDone t QUnderlying r) h) ->
    uq_history fifo_take holds h q -> q_accepted h = q_delivered h ++ u_items q.
  Proof.
    intros Hn H. induction H as [|t op h q Hh IH|t op r h q q' Hh IH Hst].
    - reflexivity.
    - simpl. apply IH. intros t' r' Hi. apply (Hn t' r'). right; auto.
    - assert (IH' : q_accepted h = q_delivered h ++ u_items q).
      { apply IH. intros t' r' Hi. apply (Hn t' r'). right; auto. }
      simpl. rewrite IH'.
      inversion Hst; subst; simpl in *;
        repeat match goal with
        | H : _ \/ _ |- _ => destruct H
        | H : False |- _ => contradiction
        | H : exists _, _ |- _ => destruct H
        | H : (_, _) = (_, _) |- _ => injection H as -> ->
        end; subst; simpl; rewrite ?app_nil_r, <- ?app_assoc; simpl; auto;
        try (match goal with H : fifo_take _ _ _ |- _ => rewrite H end; reflexivity).
      exfalso. apply (Hn t (QMoved d)). left; auto.
  Qed.
End DV.

(** ** Priority queue *)
Section PQP.
  Variable V : Type.
  Variable lt : V -> V -> bool.
  Variables push_heap pop_heap : list V -> list V.
  Hypothesis HC : PQ_contract lt push_heap pop_heap.
  Hypothesis HW : strict_weak lt.

  Definition pq_holds (d l : list V) : Prop := is_heap lt d /\ Permutation d l.

  Lemma heap_head v d : is_heap lt (v :: d) -> forall i y, nth_error (v :: d) i = Some y -> lt v y = false.
  Proof.
    intros Hh i. induction i as [i IH] using (well_founded_induction lt_wf). intros y Hy.
    destruct i as [|i].
    - simpl in Hy. injection Hy as <-. apply (sw_irrefl HW).
    - assert (Hd : i / 2 < S i) by (pose proof (Nat.div_le_upper_bound i 2 i); lia).
      destruct (nth_error (v :: d) (i / 2)) as [z|] eqn:Hz.
      + apply (sw_negtrans HW) with z; [exact (IH _ Hd _ Hz)|exact (Hh _ _ _ Hy Hz)].
      + apply nth_error_None in Hz. assert (S i < length (v :: d)) by (apply nth_error_Some; congruence). lia.
  Qed.

  Lemma pq_ok mv : ct_ok (pq_container push_heap pop_heap) (greatest_take lt) pq_holds mv.
  Proof.
    constructor; simpl.
    - split; auto. intros i x y Hx. destruct i; discriminate.
    - intros d l (_ & Hp). destruct d.
      + apply Permutation_nil in Hp. subst. split; auto.
      + split; [discriminate|]. intros ->. apply Permutation_sym, Permutation_nil in Hp. discriminate.
    - intros d l (_ & Hp). rewrite (Permutation_length Hp). reflexivity.
    - intros x d l (Hh & Hp). destruct (push_heap_ok HC x Hh) as (H1 & H2). split; auto.
      unfold pq_push. rewrite H2. apply Permutation_app_tail; auto.
    - intros d l (Hh & Hp) Hne. destruct d as [|v d]; [apply Permutation_nil in Hp; congruence|].
      destruct (pop_heap_ok HC Hh) as (l' & He & Hp' & Hh').
      exists v, l', l'. simpl. unfold pq_pop. rewrite He, removelast_last. repeat split; auto.
      + rewrite <- Hp, Hp'. auto.
      + intros y Hy. apply Permutation_sym in Hp. apply (Permutation_in _ Hp) in Hy.
        apply In_nth_error in Hy as (i & Hi). exact (heap_head Hh _ Hi).
    - intros d l _ _. split; auto. intros i x y Hx. destruct i; discriminate.
  Qed.

  Lemma greatest_ad (D : Type) (holds : D -> list V -> Prop) h q :
    (forall t r, ~ In (EDone t QUnderlying r) h) ->
    uq_history (greatest_take lt) holds h q -> Permutation (q_accepted h) (q_delivered h ++ u_items q).
  Proof.
    intros Hn H. induction H as [|t op h q Hh IH|t op r h q q' Hh IH Hst].
    - reflexivity.
    - simpl. apply IH. intros t' r' Hi. apply (Hn t' r'). right; auto.
    - assert (IH' : Permutation (q_accepted h) (q_delivered h ++ u_items q)).
      { apply IH. intros t' r' Hi. apply (Hn t' r'). right; auto. }
      simpl. rewrite IH'.
      inversion Hst; subst; simpl in *;
        repeat match goal with
        | H : _ \/ _ |- _ => destruct H
        | H : False |- _ => contradiction
        | H : exists _, _ |- _ => destruct H
        | H : (_, _) = (_, _) |- _ => injection H as -> ->
        end; subst; simpl; rewrite ?app_nil_r, <- ?app_assoc; simpl; auto;
        try (match goal with H : greatest_take _ _ _ _ |- _ => destruct H as (H & _); rewrite H end; reflexivity).
      exfalso. apply (Hn t (QMoved d)). left; auto.
  Qed.
End PQP.

(** ** The heap contract can be met: insertion sort *)
Fixpoint insert_desc (x : nat) (l : list nat) : list nat :=
  match l with
  | [] => [x]
  | y :: l' => if x <? y then y :: insert_desc x l' else x :: l
  end.
Definition sort_desc (l : list nat) : list nat := fold_right insert_desc [] l.
Definition ex_pop_heap (l : list nat) : list nat :=
  match l with [] => [] | v :: l' => sort_desc l' ++ [v] end.

Lemma insert_desc_perm x l : Permutation (insert_desc x l) (x :: l).
Proof.
  induction l as [|y l IH]; simpl; auto. destruct (x <? y); auto.
  rewrite IH. apply perm_swap.
Qed.
Lemma sort_desc_perm l : Permutation (sort_desc l) l.
Proof. induction l as [|y l IH]; simpl; auto. rewrite insert_desc_perm. auto. Qed.

Definition desc (l : list nat) : Prop :=
  forall i j x y, i <= j -> nth_error l i = Some x -> nth_error l j = Some y -> y <= x.

Lemma desc_cons x l : desc (x :: l) <-> (forall y, In y l -> y <= x) /\ desc l.
Proof.
  split.
  - intros H. split.
    + intros y Hy. apply In_nth_error in Hy as (i & Hi).
      apply (H 0 (S i) x y); auto. lia.
    + intros i j a b Hij Ha Hb. apply (H (S i) (S j) a b); auto. lia.
  - intros (H1 & H2) [|i] [|j] a b Hij Ha Hb; simpl in *; try lia; try congruence.
    + injection Ha as <-. injection Hb as <-. auto.
    + injection Ha as <-. apply H1. eapply nth_error_In; eauto.
    + apply (H2 i j a b); auto. lia.
Qed.

Lemma insert_desc_desc x l : desc l -> desc (insert_desc x l).
Proof.
  induction l as [|y l IH]; intros Hd; simpl.
  - apply desc_cons. split; [intros z []|]. intros i j a b _ Ha. destruct i; discriminate.
  - destruct (Nat.ltb_spec x y) as [H|H].
    + apply desc_cons in Hd as (H1 & H2). apply desc_cons. split; auto.
      intros z Hz. apply (Permutation_in _ (insert_desc_perm x l)) in Hz. destruct Hz as [<-|Hz]; [lia|auto].
    + apply desc_cons. split; auto. intros z [<-|Hz]; auto.
      apply desc_cons in Hd as (H1 & _). apply H1 in Hz. lia.
Qed.
Lemma sort_desc_desc l : desc (sort_desc l).
Proof.
  induction l as [|y l IH]; simpl; [intros i j a b _ Ha; destruct i; discriminate|].
  apply insert_desc_desc; auto.
Qed.
Lemma desc_heap l : desc l -> is_heap Nat.ltb l.
Proof.
  intros H i x y Hx Hy. apply Nat.ltb_ge. apply (H (i / 2) (S i)); auto.
  pose proof (Nat.div_le_upper_bound i 2 i). lia.
Qed.
Lemma sort_contract : PQ_contract Nat.ltb sort_desc ex_pop_heap.
Proof.
  constructor.
  - intros l x _. split; [apply desc_heap, sort_desc_desc|apply sort_desc_perm].
  - intros v l _. exists (sort_desc l). repeat split; auto; [apply sort_desc_perm|apply desc_heap, sort_desc_desc].
Qed.
Lemma ltb_strict_weak : strict_weak Nat.ltb.
Proof.
  constructor; intros; rewrite ?Nat.ltb_lt, ?Nat.ltb_ge in *; lia.
Qed.
