(** * Theorems about boost::lock and boost::try_lock (C35, C36, C37) *)

From Verif Require Import LA_Model LA_Spec LA_Proofs LA_Busy LA_Sys LA_SysProofs.
Set Implicit Arguments.

(** The model is total: whatever the answers, the call has returned, has thrown, or is about to do something. *)
Theorem lock_runs (c : call) (h : list ans) : run_lock c h <> OutOfFuel.
Proof. exact (run_lock_fuel c h). Qed.
Print Assumptions lock_runs.

(** C35: when boost::lock returns, each mutex has been locked as often as it is among the arguments, net of unlocks. *)
Theorem lock_acquires_all (c : call) (h h' : list ans) (tr : trace) :
  run_lock c h = Val tt h' tr -> unlocks_held tr /\ forall m, held m tr = occurs (args c) m.
Proof. intros H. pose proof (lock_all_or_none c h) as HS. now rewrite H in HS. Qed.
Print Assumptions lock_acquires_all.

(** C35: when it throws, none is left locked, and it never unlocks what it has not locked. *)
Theorem lock_throws_holding_none (c : call) (h h' : list ans) (tr : trace) :
  run_lock c h = Exn h' tr -> unlocks_held tr /\ forall m, held m tr = 0%Z.
Proof. intros H. pose proof (lock_all_or_none c h) as HS. now rewrite H in HS. Qed.
Print Assumptions lock_throws_holding_none.

(** Three mutexes: the first attempt fails at the last, the second attempt, starting there, succeeds. *)
Example lock_ok_n : exists tr, run_lock (CLock [7; 8; 9]) [AOk; AOk; AFail; AOk; AOk; AOk; AOk; AOk] = Val tt [] tr /\ held 9 tr = 1%Z /\ length tr = 8.
Proof. eexists. split; [vm_compute; reflexivity|]. split; vm_compute; reflexivity. Qed.
Example lock_throw_n : exists tr, run_lock (CLock [7; 8; 9]) [AOk; AOk; AThrow; AOk; AOk] = Exn [] tr /\ length tr = 5.
Proof. eexists. split; [vm_compute; reflexivity|]. reflexivity. Qed.
(** A range: failure at the third, then a range_lock_guard on the tail, then failure of the first, then success. *)
Example lock_ok_range : exists tr, run_lock (CRange [7; 8; 9]) [AOk; AOk; AFail; AOk; AOk;  AOk; AFail; AOk; AOk; AOk; AOk] = Val tt [] tr /\ held 7 tr = 1%Z /\ length tr = 11.
Proof. eexists. split; [vm_compute; reflexivity|]. split; vm_compute; reflexivity. Qed.
Example lock_throw_range : exists tr, run_lock (CRange [7; 8; 9]) [AOk; AOk; AFail; AOk; AOk;  AOk; AOk; AThrow; AOk; AOk] = Exn [] tr.
Proof. eexists. vm_compute; reflexivity. Qed.

(** C36: at every blocking lock() call of boost::lock the call holds nothing. *)
Theorem lock_blocks_holding_none (c : call) (h : list ans) m (tr : trace) :
  run_lock c h = Pend (ALock m) tr -> forall x, held x tr = 0%Z.
Proof. intros H. pose proof (lock_all_or_none c h) as HS. rewrite H in HS. exact (proj2 (proj2 HS)). Qed.
Print Assumptions lock_blocks_holding_none.

(** C36: it blocks on the lockable that the attempt before found busy (the first time: on the first argument), so it does not
    spin while that one stays locked. *)
Theorem lock_waits_for_the_busy_one (c : call) (h : list ans) m (tr : trace) :
  run_lock c h = Pend (ALock m) tr -> busy tr = Some m \/ (tr = [] /\ hd_error (args c) = Some m).
Proof. exact (@lock_waits_for_busy c h m tr). Qed.
Print Assumptions lock_waits_for_the_busy_one.
Example lock_waits_for_the_busy_one_ex :
  (exists tr, run_lock (CLock [7; 8; 9]) [AOk; AOk; AFail; AOk; AOk; AOk; AFail; AOk] = Pend (ALock 7) tr /\ busy tr = Some 7) /\
  (exists tr, run_lock (CRange [7; 8; 9]) [AOk; AFail; AOk] = Pend (ALock 8) tr /\ busy tr = Some 8).
Proof. split; eexists; (split; [vm_compute; reflexivity|reflexivity]). Qed.

(** C36, threads: whoever waits holds nothing, and the thread it waits for is another one, does not wait itself and
    can go on. *)
Theorem lock_no_wait_cycle (todos : list (list call)) (s : sys) (t m : nat) :
  sreach todos s -> waits_for s t m ->
  (forall m', owner s m' <> Some t) /\
  exists t', owner s m = Some t' /\ t' <> t /\ can_step s t' /\ forall m', ~ waits_for s t' m'.
Proof.
  intros Hr Hw. assert (Hn := waiting_holds_nothing Hr Hw). split; [exact Hn|].
  destruct Hw as (c & h & cs & tr & Ht & Hp & Ho). destruct (owner s m) as [t'|] eqn:E; [|congruence].
  exists t'. split; [reflexivity|]. split; [intros ->; now apply (Hn m)|].
  split; [exact (holder_can_step m Hr E)|].
  intros m' Hw'. exact (waiting_holds_nothing Hr Hw' m E).
Qed.
Print Assumptions lock_no_wait_cycle.

(** C36, threads: there is no deadlock: as long as some thread is not done, some thread can take a step (and the step is
    one of the system in which only that thread moves). *)
Theorem lock_deadlock_free (todos : list (list call)) (s : sys) :
  sreach todos s -> (forall t, t < length (threads s) -> done s t) \/
  exists t s', can_step s t /\ sstep s s' /\ forall u, u <> t -> nth_error (threads s') u = nth_error (threads s) u.
Proof.
  intros Hr.
  assert (Hall : forall n, n <= length (threads s) -> (forall t, t < n -> done s t) \/ exists t, can_step s t).
  { induction n as [|n IH]; intros Hn.
    - left. intros t Ht. lia.
    - destruct IH as [IH|IH]; [lia| |auto].
      destruct (nth_error (threads s) n) as [x|] eqn:Hx; [|apply nth_error_None in Hx; lia].
      destruct (waits_or_steps s n Hx) as [Hd|[Hc|[m Hw]]].
      + left. intros t Ht. destruct (Nat.eq_dec t n) as [->|Hne]; [exact Hd|]. apply IH. lia.
      + right. eauto.
      + right. destruct (lock_no_wait_cycle Hr Hw) as (_ & t' & _ & _ & Hc & _). eauto. }
  destruct (Hall (length (threads s)) (le_n _)) as [H|[t Hc]]; [left; exact H|].
  right. destruct (can_step_steps s t Hc) as (s' & Hs & Hu). exists t, s'. auto.
Qed.
Print Assumptions lock_deadlock_free.

(** Two threads that lock the same mutexes; the second waits for the first. *)
Example lock_waits : exists s, sreach [[CLock [0; 1]]; [CLock [0; 1]]] s /\ waits_for s 1 0.
Proof.
  set (td := [[CLock [0; 1]]; [CLock [0; 1]]]).
  assert (H1 : sreach td (MkSys (fun _ => None) [TIn (CLock [0; 1]) [] []; TIdle [CLock [0; 1]]])).
  { eapply sr_step; [apply sr_init|]. exact (@st_call (MkSys (fun _ => None) (map TIdle td)) 0 (CLock [0; 1]) [] eq_refl). }
  assert (H2 : sreach td (MkSys (set_owner (fun _ => None) 0 (Some 0)) [TIn (CLock [0; 1]) [AOk] []; TIdle [CLock [0; 1]]])).
  { eapply sr_step; [exact H1|].
    refine (@st_act (MkSys (fun _ => None) [TIn (CLock [0; 1]) [] []; TIdle [CLock [0; 1]]]) 0 (CLock [0; 1]) [] [] (ALock 0) [] AOk _ eq_refl eq_refl _).
    now apply ans_lock. }
  assert (H3 : sreach td (MkSys (set_owner (fun _ => None) 0 (Some 0)) [TIn (CLock [0; 1]) [AOk] []; TIn (CLock [0; 1]) [] []])).
  { eapply sr_step; [exact H2|].
    exact (@st_call (MkSys (set_owner (fun _ => None) 0 (Some 0)) [TIn (CLock [0; 1]) [AOk] []; TIdle [CLock [0; 1]]]) 1 (CLock [0; 1]) [] eq_refl). }
  eexists. split; [exact H3|]. unfold waits_for. do 4 eexists. split; [reflexivity|]. split; [vm_compute; reflexivity|]. discriminate.
Qed.

(** C37: try_lock returns -1 iff it locked everything; otherwise it returns the 0-based position of the first argument
    whose try_lock() failed, having tried those before it with success and none after it, and holds nothing. *)
Theorem try_lock_index (ms : list nat) (h h' : list ans) (r : Z) (tr : trace) :
  run_try ms h = Val r h' tr ->
  (r = (-1)%Z /\ (forall m, held m tr = occurs ms m) /\ filter is_try (rev tr) = map (fun m => (ATry m, AOk)) ms) \/
  (exists i m, r = Z.of_nat i /\ nth_error ms i = Some m /\ (forall x, held x tr = 0%Z) /\
     filter is_try (rev tr) = map (fun x => (ATry x, AOk)) (firstn i ms) ++ [(ATry m, AFail)]).
Proof.
  unfold run_try, try_lock_n. intros H. apply bind_val in H as (f & h1 & tr1 & H1 & H2). injection H2 as <- <- <-.
  pose proof (try_internal_makes ms _ _ H1) as [Hl Ht].
  pose proof (@spec_try_internal ms h [] c0 I (fun _ => Z.le_refl 0) (fun _ => eq_refl)) as Hs. rewrite H1 in Hs.
  destruct Hs as [_ Hs]. unfold res0 in Hs. unfold pos0 in *. unfold tries in Ht. simpl in Ht.
  destruct (Nat.eqb f 0) eqn:E.
  - left. apply Nat.eqb_eq in E. subst f. split; [reflexivity|]. split; [exact Hs|]. rewrite Ht.
    unfold attempts. rewrite firstn_all, skipn_all. simpl. now rewrite app_nil_r.
  - right. apply Nat.eqb_neq in E. exists (f - 1).
    assert (Hne : exists m, nth_error ms (f - 1) = Some m).
    { destruct (nth_error ms (f - 1)) eqn:Em; eauto. exfalso.
      (* position = length would mean an attempt sequence without a failure *)
      apply nth_error_None in Em. revert Em Hl E H1. clear. revert f h h1 tr1. generalize (@nil (act * ans)).
      induction ms as [|m ms IH]; intros tr0 f h h1 tr1 Em Hl E H1.
      - injection H1 as <- <- <-. congruence.
      - destruct ms as [|m' ms].
        + cbn [try_internal] in H1. apply bind_val in H1 as (b & h2 & tr2 & Hb & H1). injection H1 as <- <- <-.
          destruct b; [congruence|]. simpl in Em. lia.
        + change (try_internal (m :: m' :: ms)) with
            (b <- do_try m ;; if negb b then ret 1
             else f <- unwinding (do_unlock m) (try_internal (m' :: ms)) ;;
                  if Nat.eqb f 0 then ret 0 else do_unlock m ;;; ret (f + 1)) in H1.
          apply bind_val in H1 as (b & h2 & tr2 & Hb & H1). destruct b; cbn [negb] in H1.
          * apply bind_val in H1 as (g & h3 & tr3 & Hg & H1). apply unwinding_val in Hg.
            destruct (Nat.eqb g 0) eqn:Eg; [injection H1 as <- <- <-; congruence|].
            apply bind_val in H1 as (u & h4 & tr4 & Hu & H1). injection H1 as <- <- <-. apply Nat.eqb_neq in Eg.
            eapply IH; [| |exact Eg|exact Hg]; simpl in *; lia.
          * injection H1 as <- <- <-. simpl in Em. lia. }
    destruct Hne as [m Hm]. exists m. split; [lia|]. split; [exact Hm|]. split; [exact Hs|]. rewrite Ht. unfold attempts.
    f_equal. destruct (nth_error_split _ _ Hm) as (l1 & l2 & -> & Hl1). rewrite <- Hl1.
    rewrite skipn_app, skipn_all, Nat.sub_diag. reflexivity.
Qed.
Print Assumptions try_lock_index.

(** C37 for ranges: the position at which it failed, or the end. *)
Theorem try_lock_range_index (ms : list nat) (h h' : list ans) (i : nat) (tr : trace) :
  run_try_range ms h = Val i h' tr ->
  (i = length ms /\ (forall m, held m tr = occurs ms m) /\ filter is_try (rev tr) = map (fun m => (ATry m, AOk)) ms) \/
  (exists m, nth_error ms i = Some m /\ (forall x, held x tr = 0%Z) /\
     filter is_try (rev tr) = map (fun x => (ATry x, AOk)) (firstn i ms) ++ [(ATry m, AFail)]).
Proof.
  unfold run_try_range. intros H.
  pose proof (try_range_makes ms _ _ H) as [Hl Ht].
  pose proof (@spec_try_range ms h [] c0 I (fun _ => Z.le_refl 0) (fun _ => eq_refl)) as Hs. rewrite H in Hs.
  destruct Hs as [_ Hs]. unfold tries in Ht. simpl in Ht.
  destruct (Nat.eqb i (length ms)) eqn:E.
  - left. apply Nat.eqb_eq in E. subst i. split; [reflexivity|]. split; [exact Hs|]. rewrite Ht.
    unfold attempts. rewrite firstn_all, skipn_all. simpl. now rewrite app_nil_r.
  - right. apply Nat.eqb_neq in E.
    destruct (nth_error ms i) as [m|] eqn:Em; [|apply nth_error_None in Em; lia].
    exists m. split; [reflexivity|]. split; [exact Hs|]. rewrite Ht. unfold attempts.
    f_equal. destruct (nth_error_split _ _ Em) as (l1 & l2 & -> & Hl1). rewrite <- Hl1.
    rewrite skipn_app, skipn_all, Nat.sub_diag. reflexivity.
Qed.
Print Assumptions try_lock_range_index.

(** C37: if a try_lock() throws, nothing stays locked; and boost::try_lock never calls a blocking function. *)
Theorem try_lock_never_blocks (ms : list nat) (h : list ans) :
  (forall a tr, run_try ms h = Pend a tr \/ run_try_range ms h = Pend a tr -> forall m, a <> ALock m) /\
  (forall h' tr, run_try ms h = Exn h' tr \/ run_try_range ms h = Exn h' tr -> forall m, held m tr = 0%Z).
Proof.
  assert (Hs1 : spec false (try_lock_n ms) c0 (fun r x => if Z.eqb r (-1) then occurs ms x else 0%Z) c0).
  { unfold try_lock_n. eapply spec_bind; [apply spec_try_internal|]. intros f. apply spec_ret. intros x. unfold res0.
    destruct f as [|f]; [reflexivity|]. cbn [Nat.eqb]. destruct (Z.eqb_spec (Z.of_nat (S f) - 1) (-1)); [lia|reflexivity]. }
  pose proof (Hs1 h [] c0 I (fun _ => Z.le_refl 0) (fun _ => eq_refl)) as H1.
  pose proof (@spec_try_range ms h [] c0 I (fun _ => Z.le_refl 0) (fun _ => eq_refl)) as H2.
  unfold run_try, run_try_range. split.
  - intros a tr [H|H] m ->; rewrite H in *; [destruct H1 as [_ [H1 _]]|destruct H2 as [_ [H2 _]]]; discriminate.
  - intros h' tr [H|H] m.
    + rewrite H in H1. destruct H1 as [_ H1]. now rewrite H1.
    + rewrite H in H2. destruct H2 as [_ H2]. now rewrite H2.
Qed.
Print Assumptions try_lock_never_blocks.

Example try_lock_ok : exists tr tr', run_try [4; 5; 6] [AOk; AOk; AFail; AOk; AOk] = Val 2%Z [] tr /\ run_try [4; 5] [AOk; AOk] = Val (-1)%Z [] tr'.
Proof. do 2 eexists. split; vm_compute; reflexivity. Qed.
Example try_lock_range_ok : exists tr tr', run_try_range [4; 5; 6] [AOk; AFail; AOk] = Val 1 [] tr /\ run_try_range [4; 5] [AOk; AOk] = Val 2 [] tr'.
Proof. do 2 eexists. split; vm_compute; reflexivity. Qed.
