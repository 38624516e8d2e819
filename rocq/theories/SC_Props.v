(** * C61: scheduled executors

    The heap functions of the standard library are any functions with the standard's contract ([PQ_contract]).  [steady] distinguishes
    steady_clock from a clock that may be set back. *)
From Coq Require Import Permutation.
From Verif Require Import Monitor MonitorLemmas SQ_Model SQ_Spec SQ_Proofs TQ_Model TQ_Spec TQ_Proofs SC_Spec SC_Proofs.
Set Implicit Arguments.
Notation scconf V := (cfg (sc V) (sk V) (sop V) sres scv unit).
Definition sc_reachable {V} ph po steady poll (n : nat) (now : Z) (c : scconf V) : Prop := reachable (scprog ph po steady poll) n (sc_new V now) tt c.

Lemma runs_running V (l : list (tstat (sk V) (sop V) scv unit)) : flat_map (@runs V) l = flat_map (@running V) l.
Proof. induction l as [|x l IH]; [reflexivity|]. cbn [flat_map]. rewrite IH. reflexivity. Qed.

(** Nothing is undefined.  No task was started before its time.  Every accepted task is pending or was started once; every started task
    has ended or is being run, once.  A submission that returned normally was accepted with the time asked for (submit_after: a clock reading taken
    since, plus the duration); one that threw found the executor closed. *)
Theorem scheduled_not_early : forall V ph po steady poll n now (c : scconf V), PQ_contract (@s_lt V) ph po -> sc_reachable ph po steady poll n now c ->
  ~ In (Crashed (sk V) (sop V) scv unit) (thr c) /\
  (forall e at_, In (e, at_) (s_start (sh c)) -> (snd e <= at_)%Z) /\
  Permutation (s_acc (sh c)) (map fst (s_start (sh c)) ++ pending (sh c)) /\
  Permutation (map fst (s_start (sh c))) (s_end (sh c) ++ flat_map (@runs V) (thr c)) /\
  (forall t x tp, In (EDone t (SSubmitAt x tp) SVoid) (hist c) -> In (x, tp) (s_acc (sh c))) /\
  (forall t x d, In (EDone t (SSubmitAfter x d) SVoid) (hist c) -> exists due, In (x, due) (s_acc (sh c)) /\ (steady = true -> (now + d <= due <= clock (sh c) + d)%Z)) /\
  (forall t op, In (EDone t op SThrowClosed) (hist c) -> (exists x tp, op = SSubmitAt x tp \/ op = SSubmitAfter x tp) -> t_closed (s_q (sh c)) = true).
Proof.
  intros V ph po steady poll n now c HC Hr. destruct (JInv_reachable HC Hr) as [[I1 I2 I3 I4 I5 I6] J1 J2 J3]. rewrite runs_running.
  split; [intros Hin; rewrite Forall_forall in I4; exact (I4 _ Hin)|]. split; [intros e a Hin; rewrite Forall_forall in I6; exact (I6 _ Hin)|]. split; [exact I2|]. split; [exact I3|].
  split; [intros t x tp Hin; exact (J3 _ _ _ Hin)|]. split; [intros t x d Hin; exact (J3 _ _ _ Hin)|].
  intros t op Hin (x & tp & [ -> | -> ]); exact (J3 _ _ _ Hin).
Qed.
Print Assumptions scheduled_not_early.

(** At every moment at which a task is started: the clock reads its start time, which is not before its due time; no pending task was due earlier; and it, and nothing else, leaves the pending tasks. *)
Theorem scheduled_in_order : forall V ph po steady poll n now (c c' : scconf V) lb, PQ_contract (@s_lt V) ph po -> sc_reachable ph po steady poll n now c ->
  step (scprog ph po steady poll) c lb = Some c' ->
  s_start (sh c') = s_start (sh c) \/
  exists x, s_start (sh c') = (x, clock (sh c')) :: s_start (sh c) /\ (snd x <= clock (sh c'))%Z /\
    (forall e, In e (pending (sh c)) -> (snd x <= snd e)%Z) /\ Permutation (pending (sh c)) (x :: pending (sh c')).
Proof.
  intros V ph po steady poll n now c c' lb HC Hr Hs. apply step_inv in Hs. destruct (SInv_reachable HC Hr) as [I1 I2 I3 I4 I5 I6]. destruct Hs as
     [t l op Ht Hp ->|t ps e l op k s' ns o thr' Ht Hfr Hd ->|t p l m ns thr' Ht Hd ->
     |t l op cv k Ht ->|t l op cv k k' Ht Hk ->|t l op cv k k' Ht Hk ->|t l op k k' Ht Hk ->]; cbn [sh]; auto.
  destruct (p_start (frag_ok steady poll HC _ _ _ _ _ Hfr (Forall_nth_error I4 Ht) I1)) as [[E _]|(x & E1 & _ & E2 & E3 & E4)]; eauto 6.
Qed.
Print Assumptions scheduled_in_order.

(** A steady clock: a thread in loop() that gets to run while a pending task is due starts a task, unless it is being interrupted. *)
Theorem scheduled_due_starts : forall V ph po poll n now (c c' : scconf V) t l k ps a e, PQ_contract (@s_lt V) ph po -> sc_reachable ph po true poll n now c ->
  nth_error (thr c) t = Some (Ready scv l SLoop (SkQ k)) -> k <> TkIntr -> In e (pending (sh c)) -> (snd e <= clock (sh c))%Z ->
  step (scprog ph po true poll) c (LRun _ t ps a) = Some c' -> exists x, s_start (sh c') = (x, clock (sh c')) :: s_start (sh c) /\ nth_error (thr c') t = Some (Ready scv l SLoop (SkRun x)).
Proof.
  intros V ph po poll n now c c' t l k ps a e HC Hr Ht Hk Hin Hd Hs. destruct (SInv_reachable HC Hr) as [I1 _ _ I4 _ _]. destruct (Forall_nth_error I4 Ht) as [_ Hf].
  destruct (wait_due ph po poll 0 (snd a) _ _ eq_refl I1 Hf Hk Hin Hd) as (q' & x & E).
  cbn [step] in Hs. rewrite Ht in Hs. cbn [frag scprog sfrag] in Hs. unfold s_wait in Hs. rewrite E in Hs. cbn in Hs. injection Hs as <-. exists x. cbn. split; [reflexivity|].
  apply nth_error_upd_same. apply nth_error_Some. congruence.
Qed.
Print Assumptions scheduled_due_starts.

(** If no thread can go on, a thread that sleeps in loop() sleeps because the executor is open and nothing is pending before the time at which it wakes up by itself. *)
Theorem scheduled_no_lost_wakeup : forall V ph po steady poll n now (c : scconf V) t l op cv k, PQ_contract (@s_lt V) ph po -> sc_reachable ph po steady poll n now c -> quiescent c ->
  nth_error (thr c) t = Some (Asleep l op cv k) -> op = SLoop /\ t_closed (s_q (sh c)) = false /\
  (pending (sh c) = [] \/ exists tp, wakes k = Some tp /\ forall e, In e (pending (sh c)) -> (tp <= snd e)%Z).
Proof.
  intros V ph po steady poll n now c t l op cv k HC Hr Hq Ht. destruct (SInv_reachable HC Hr) as [_ _ _ I4 I5 _].
  destruct (Forall_nth_error I4 Ht) as [Hf [k' ->]]. destruct Hf as [-> Hf]. split; auto. destruct I5 as [I5|I5].
  - destruct (Forall_nth_error I5 Ht) as [S1 S2]. split; auto. destruct k'; simpl in *; try contradiction; eauto.
  - exfalso. apply sumw_pos in I5 as (i & x & Hi & Hx). destruct (quiescent_settled Hq Hi) as [(u & ->)|(u & op & cv' & k & ->)]; simpl in Hx; lia.
Qed.
Print Assumptions scheduled_no_lost_wakeup.

Lemma wait_not_intr V ph po steady poll t ds (k : tk V) s q' ns r : kfit TWaitPull k -> k <> TkIntr ->
  tfrag ph po steady poll t (false, ds) k s = (q', ns, ORet _ _ r) -> r <> TThrowIntr.
Proof.
  intros Hk Hn. set (good := fun x : tout V => match snd x with ORet _ _ TThrowIntr => False | _ => True end).
  assert (H : good (tfrag ph po steady poll t (false, ds) k s)).
  { assert (Hpull : forall s, good (t_pull po s)).
    { intros s1. unfold t_pull, good. destruct (pq_pull po (t_data s1)) as [[? ?]|]; exact I. }
    assert (Hck : forall dl s ds k, (forall s ds, good (k s ds)) -> good (checks po steady TWaitPull dl s ds k)).
    { intros dl s1 ds1 k1 Hk1. unfold checks. destruct (reached steady s1 ds1) as [[b s2] ds2].
      destruct b; [apply Hpull|]. destruct (t_closed s2); [exact I|].
      destruct (past steady dl s2 ds2) as [[p s3] ds3]. destruct p; [exact I|apply Hk1]. }
    assert (Hout : forall dl s ds, good (outer_wait steady poll TWaitPull dl s ds)).
    { intros dl s1 ds1. unfold outer_wait. destruct (t_data s1); [exact I|].
      destruct (if steady then _ else _) as [lim s2]. exact I. }
    assert (Hp2 : forall dl s ds, good (part2 po steady poll TWaitPull dl s ds)).
    { intros. apply Hck. intros. apply Hout. }
    assert (Hin : forall dl s ds, good (inner_wait po steady poll TWaitPull dl s ds)).
    { intros. unfold inner_wait. destruct (t_data s0); [destruct (t_closed s0)|]; try apply Hp2. exact I. }
    assert (Hlt : forall dl s ds, good (loop_top po steady poll TWaitPull dl s ds)).
    { intros. apply Hck. intros. apply Hin. }
    destruct k as [op|op dl|op dl|op tp|op dl tp|]; simpl in Hk; try congruence; unfold tfrag.
    - subst op. apply Hlt.
    - destruct Hk as (-> & _). apply Hlt.
    - destruct Hk as (-> & _). apply Hin.
    - destruct Hk as (_ & [Hk|(d & Hk)]); discriminate.
    - destruct Hk as (-> & _). apply Hlt. }
  intros E. rewrite E in H. intros ->. exact H.
Qed.

(** loop() returns only when the executor has been closed, when the thread has been interrupted in its wait, or when the task it runs lets thread_interrupted escape. *)
Theorem scheduled_loop_goes_on : forall V ph po steady poll n now (c c' : scconf V) lb t r, PQ_contract (@s_lt V) ph po -> sc_reachable ph po steady poll n now c ->
  step (scprog ph po steady poll) c lb = Some c' -> hist c' = EDone t SLoop r :: hist c ->
  t_closed (s_q (sh c)) = true \/ (exists l, nth_error (thr c) t = Some (Ready scv l SLoop (SkQ TkIntr))) \/
  (exists l e ps ds, nth_error (thr c) t = Some (Ready scv l SLoop (SkRun e)) /\ lb = LRun _ t ps (AIntr, ds)).
Proof.
  intros V ph po steady poll n now c c' lb t r HC Hr Hs Hh. destruct (SInv_reachable HC Hr) as [I1 _ _ I4 _ _].
  assert (Hn : forall (e : event (sop V) sres) h, h <> e :: h).
  { intros e h E. apply (f_equal (@length _)) in E. cbn in E. lia. }
  destruct lb as [u op|u ps a|u|u|u]; cbn [step] in Hs; destruct (nth_error (thr c) u) as [x|] eqn:Hx; try discriminate.
  - destruct x; try discriminate. destruct (pre _ _ _); [|discriminate]. injection Hs as <-. discriminate Hh.
  - destruct x as [l|l op k|l op cv k|l ns|]; try discriminate.
    + destruct (frag (scprog ph po steady poll) u a k (sh c)) as [[s' ns] o] eqn:F. destruct (deliver_all _ _ _ _) as [thr'|]; [|discriminate].
      pose proof (Forall_nth_error I4 Hx) as Hf. cbn in Hf.
      destruct o as [r'|r' ns'|cv k'|k'|]; cbn in Hs; injection Hs as <-; cbn [hist] in Hh; try (exfalso; exact (Hn _ _ Hh)).
      * injection Hh as -> -> ->. cbn [frag scprog] in F. destruct k as [op'|x due|k|e|[e|]]; cbn in Hf.
        -- subst op'. cbn in F. discriminate.
        -- contradiction.
        -- destruct Hf as [_ Hf]. cbn [sfrag] in F. unfold s_wait in F.
           destruct (tfrag ph po steady poll 0 (false, snd a) k (s_q (sh c))) as [[q' ns1] o1] eqn:T.
           pose proof (wait_post steady poll HC _ _ _ _ I1 Hf T) as (_ & _ & W).
           destruct o1 as [r1|r1 ns'|cv k'|k'|]; try discriminate; try contradiction.
           assert (D : k = TkIntr \/ k <> TkIntr) by (destruct k; (left; reflexivity) || (right; discriminate)).
           destruct D as [->|D]; [right; left; eauto|]. pose proof (@wait_not_intr V ph po steady poll 0 (snd a) k _ q' ns1 r1 Hf D T) as N.
           destruct r1; try discriminate; destruct W as (_ & _ & [[_ W]|W]); auto; congruence.
        -- right. right. destruct a as [a ds]. exists l, e, ps, ds. split; [exact Hx|]. cbn [sfrag fst] in F.
           destruct a; try reflexivity; unfold s_close, s_push in F; try destruct (t_closed _); discriminate.
        -- cbn in F. discriminate.
        -- discriminate.
      * injection Hh as -> -> ->. cbn [frag scprog] in F. exfalso. destruct k as [op'|x due|k|e|[e|]]; cbn in Hf.
        -- subst op'. cbn in F. discriminate.
        -- contradiction.
        -- cbn [sfrag] in F. unfold s_wait in F. destruct (tfrag _ _ _ _ _ _ _ _) as [[q' ns1] o1]. destruct o1 as [r1|r1 ns2|cv k'|k'|]; try discriminate. destruct r1; discriminate.
        -- destruct a as [a ds]. cbn [sfrag fst] in F. destruct a; unfold s_close, s_push in F; try destruct (t_closed _); discriminate.
        -- cbn in F. discriminate.
        -- discriminate.
    + destruct ns; [discriminate|]. destruct (deliver _ _ _ _); [|discriminate]. injection Hs as <-. exfalso. exact (Hn _ _ Hh).
  - destruct x; try discriminate. injection Hs as <-. exfalso. exact (Hn _ _ Hh).
  - destruct x; try discriminate. destruct (on_timeout _ _); [|discriminate]. injection Hs as <-. exfalso. exact (Hn _ _ Hh).
  - destruct x; try discriminate; (destruct (on_intr _ _); [|discriminate]); injection Hs as <-; exfalso; exact (Hn _ _ Hh).
Qed.
Print Assumptions scheduled_loop_goes_on.

(** ** The hypotheses are met *)
Notation scall t op := [LCall (act nat * list Z) t op].
Notation srun t a ds := [LRun (sop nat) t [] (a, ds)].
(** One thread loops; tasks due at 9 and at 5 are submitted, the second wakes the loop, which starts it when the clock reads 6; the task submits another; the executor is closed; what is due is still run. *)
Definition story : list (label (sop nat) (act nat * list Z)) :=
  scall 0 SLoop ++ srun 0 AStep [] ++ srun 0 AStep [1%Z] ++ scall 1 (SSubmitAt 7 9%Z) ++ srun 1 AStep [] ++ srun 1 AStep [] ++ srun 0 AStep [1%Z] ++
  scall 1 (SSubmitAfter 8 4%Z) ++ srun 1 AStep [0%Z] ++ srun 1 AStep [].
Example scheduled_story : PQ_contract (@s_lt nat) sort_due pop_due /\ exists c c' : scconf nat,
  sc_reachable sort_due pop_due true 100 2 0 c /\ pending (sh c) = [(8, 5%Z); (7, 9%Z)] /\ clock (sh c) = 1%Z /\
  run (scprog sort_due pop_due true 100) c (srun 0 AStep [5%Z] ++ srun 0 AClose [] ++ srun 0 AStep [] ++ srun 0 AEnd [] ++ srun 0 AStep [10%Z] ++ srun 0 AEnd [] ++ srun 0 AStep []) = Some c' /\
  s_start (sh c') = [((7, 9%Z), 16%Z); ((8, 5%Z), 6%Z)] /\ s_end (sh c') = [(7, 9%Z); (8, 5%Z)] /\ hd_error (hist c') = Some (EDone 0 SLoop SVoid).
Proof.
  split; [exact due_contract|]. eexists. eexists. split; [exists story; vm_compute; reflexivity|]. split; [vm_compute; reflexivity|]. split; [vm_compute; reflexivity|]. split; [vm_compute; reflexivity|].
  split; [vm_compute; reflexivity|]. split; vm_compute; reflexivity.
Qed.
(** a thread that gets to run while a task is due; and one that sleeps until the first pending task is due *)
Example scheduled_due_story : exists c : scconf nat, sc_reachable sort_due pop_due true 100 2 0 c /\
  nth_error (thr c) 0 = Some (Ready scv tt SLoop (SkQ (TkInner TWaitPull None))) /\ In (7, 1%Z) (pending (sh c)) /\ clock (sh c) = 1%Z.
Proof.
  eexists. split; [exists (scall 0 SLoop ++ srun 0 AStep [] ++ srun 0 AStep [1%Z] ++ scall 1 (SSubmitAfter 7 0%Z) ++ srun 1 AStep [1%Z] ++ srun 1 AStep []); vm_compute; reflexivity|].
  split; [vm_compute; reflexivity|]. split; [vm_compute; auto|]. vm_compute; reflexivity.
Qed.
Example scheduled_sleep_story : exists c : scconf nat, sc_reachable sort_due pop_due true 100 2 0 c /\ quiescent c /\
  nth_error (thr c) 0 = Some (Asleep tt SLoop Cond (SkQ (TkOuter TWaitPull None 5%Z))) /\ pending (sh c) = [(8, 5%Z); (7, 9%Z)].
Proof.
  eexists. split; [exists (story ++ srun 0 AStep [1%Z]); vm_compute; reflexivity|]. split; [vm_compute; reflexivity|]. split; vm_compute; reflexivity.
Qed.
(** A thread in loop() is interrupted while it sleeps, the executor being open, and loop() returns. *)
Example scheduled_intr_story : exists c c' : scconf nat, sc_reachable sort_due pop_due true 100 2 0 c /\ t_closed (s_q (sh c)) = false /\
  step (scprog sort_due pop_due true 100) c (LRun (sop nat) 0 [] (AStep, [])) = Some c' /\ hist c' = EDone 0 SLoop SVoid :: hist c.
Proof.
  eexists. eexists. split; [exists (story ++ srun 0 AStep [1%Z] ++ [LIntr _ _ 0]); vm_compute; reflexivity|]. split; [vm_compute; reflexivity|]. split; vm_compute; reflexivity.
Qed.
