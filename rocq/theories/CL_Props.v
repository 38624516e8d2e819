(** * Property C18: boost::completion_latch

    Model: CL_Model.v; specification: CL_Spec.v. *)

From Verif Require Import MonWake CL_Model CL_Spec CL_Proofs CL_Results.

Definition cl_reachable (threads count f : nat) (c : clconf) : Prop :=
  reachable (clprog false) threads (clatch_new count f) tt c.
Definition cl_start (threads count f : nat) : clconf := init ck cop cres ccv threads (clatch_new count f) tt.

(** ** The intended statements *)

(** Once the latch has completed, no call that waits for completion stays blocked. *)
Definition C18_wait_returns : Prop := forall threads count f c t op,
  cl_reachable threads count f c -> c_no_reset (hist c) -> quiescent c -> completions (hist c) = 1 ->
  (op = CWait \/ op = CTryWait \/ op = CWaitTimed) -> ~ c_blocked c t op.

(** try_wait never blocks. *)
Definition C18_try_wait_nonblocking : Prop := forall threads count f c t,
  cl_reachable threads count f c -> c_no_reset (hist c) -> quiescent c -> ~ c_blocked c t CTryWait.

(** A blocked wait_for/wait_until can always be ended by its deadline. *)
Definition C18_timed_wait_bounded : Prop := forall threads count f c t,
  cl_reachable threads count f c -> c_no_reset (hist c) -> c_blocked c t CWaitTimed ->
  step (clprog false) c (LTimeout cop unit t) <> None.

(** count_down does not block. *)
Definition C18_count_down_nonblocking : Prop := forall threads count f c t,
  cl_reachable threads count f c -> c_no_reset (hist c) -> quiescent c ->
  ~ c_blocked c t CCountDown /\ ~ (count <= downs (hist c) /\ c_blocked c t CSync).

(** ** They are false of the code *)

Notation ccall t op := [LCall unit t op; LRun cop t [] tt].

Definition late_run : list (label cop unit) :=
  ccall 0 CWait ++ ccall 1 CCountDown ++ [LRun cop 0 [] tt; LRun cop 1 [] tt] ++ ccall 0 CWait.

Ltac witness ls := exists ls; vm_compute; reflexivity.

Definition final (n m : nat) (ls : list (label cop unit)) : clconf :=
  match run (clprog false) (cl_start n m 7) ls with Some c => c | None => cl_start n m 7 end.

Ltac no_reset_tac := intros ?t ?n Hin; vm_compute in Hin; intuition discriminate.

Theorem C18_wait_after_completion_refuted : ~ C18_wait_returns.
Proof.
  intros H. eapply (H 2 1 7 (final 2 1 late_run) 0 CWait); try (vm_compute; reflexivity).
  - witness late_run.
  - no_reset_tac.
  - auto.
  - exists tt, CVLeave, (CInside CWait). vm_compute. reflexivity.
Qed.
Print Assumptions C18_wait_after_completion_refuted.

Theorem C18_try_wait_refuted : ~ C18_try_wait_nonblocking.
Proof.
  intros H. eapply (H 1 1 7 (final 1 1 (ccall 0 CTryWait)) 0); try (vm_compute; reflexivity).
  - witness (ccall 0 CTryWait : list (label cop unit)).
  - no_reset_tac.
  - exists tt, CVLeave, (CInside CTryWait). vm_compute. reflexivity.
Qed.
Print Assumptions C18_try_wait_refuted.

Theorem C18_wait_for_refuted : ~ C18_timed_wait_bounded.
Proof.
  intros H. eapply (H 1 1 7 (final 1 1 (ccall 0 CWaitTimed)) 0); try (vm_compute; reflexivity).
  - witness (ccall 0 CWaitTimed : list (label cop unit)).
  - no_reset_tac.
  - exists tt, CVLeave, (CInside CWaitTimed). vm_compute. reflexivity.
Qed.
Print Assumptions C18_wait_for_refuted.

Theorem C18_count_down_refuted : ~ C18_count_down_nonblocking.
Proof.
  intros H. destruct (H 1 1 7 (final 1 1 (ccall 0 CCountDown)) 0) as [H1 _]; try (vm_compute; reflexivity).
  - witness (ccall 0 CCountDown : list (label cop unit)).
  - no_reset_tac.
  - apply H1. exists tt, CVWait, CFirst. vm_compute. reflexivity.
Qed.
Print Assumptions C18_count_down_refuted.

(** ** What does hold *)

(** No call that says "completed" returns before [count] calls counting down have been started. *)
Theorem C18_not_before_zero_partial : forall threads count f c t op r h1 h2, 0 < count ->
  cl_reachable threads count f c -> c_no_reset (hist c) ->
  hist c = h1 ++ EDone t op r :: h2 -> c_says_open op r = true -> count <= downs h2.
Proof. exact not_early. Qed.
Print Assumptions C18_not_before_zero_partial.

(** A thread that is blocked while fewer than [count] calls counting down have been started returns once
    [count] have; then the completion function has run exactly once and no count_down is blocked. *)
Theorem C18_released_partial : forall threads count f c1 t op ls c2, 0 < count ->
  cl_reachable threads count f c1 -> c_blocked c1 t op -> downs (hist c1) < count ->
  run (clprog false) c1 ls = Some c2 -> quiescent c2 -> c_no_reset (hist c2) -> count <= downs (hist c2) ->
  (exists h, hist c2 = h ++ hist c1 /\ c_returns_in t h) /\ completions (hist c2) = 1 /\
  forall t', ~ c_blocked c2 t' CCountDown.
Proof. exact released. Qed.
Print Assumptions C18_released_partial.

(** The completion function never runs twice, and quiescence is where every execution ends. *)
Theorem C18_completes_once_partial : forall threads count f c, 0 < count ->
  cl_reachable threads count f c -> c_no_reset (hist c) -> completions (hist c) <= 1.
Proof. exact completes_once. Qed.
Print Assumptions C18_completes_once_partial.

(** Results tell the truth about the count at the moment of return, also with reset() and interruption: try_wait
    says whether it is zero, a timed wait reports a timeout exactly if it is not, wait and count_down_and_wait
    return normally without running the completion function only if it is, and reset(n) has set it to n. *)
Theorem C18_results_exact : forall intr threads count f c c' lb t op r,
  reachable (clprog intr) threads (clatch_new count f) tt c -> step (clprog intr) c lb = Some c' ->
  hist c' = EDone t op r :: hist c ->
  (forall b, r = CBool b -> b = (c_count (sh c') =? 0)) /\
  (forall b, r = CTimeout b -> b = negb (c_count (sh c') =? 0)) /\
  (r = CVoid -> op = CWait \/ op = CSync -> c_count (sh c') = 0) /\
  (forall n, op = CReset n -> c_count (sh c') = n).
Proof.
  intros intr threads count f c c' lb t op r Hr Hs Hh.
  destruct (results intr threads count f c c' lb t op r Hr Hs Hh) as ((H1 & H2) & _).
  split; [|split; [|split]].
  - intros b ->. exact H1.
  - intros b ->. exact H1.
  - intros -> [ -> | -> ]; exact H2.
  - intros n ->. exact H2.
Qed.
Print Assumptions C18_results_exact.

(** then(g) returns the function that was in force, and completion runs the function in force; the function in
    force is the one of the last then(). *)
Theorem C18_completion_function : forall intr threads count f c t op r h1 h2,
  reachable (clprog intr) threads (clatch_new count f) tt c -> hist c = h1 ++ EDone t op r :: h2 ->
  (forall g, op = CThen g -> r = CFun (stored f h2)) /\ (forall g, r = CCompleted g -> g = stored f h2).
Proof. exact functions. Qed.
Print Assumptions C18_completion_function.

Example C18_function_case : exists c, cl_reachable 3 1 7 c /\
  hist c = [EDone 1 CCountDown (CCompleted 9); EDone 0 CWait CVoid; EDone 2 (CThen 9) (CFun 7);
            ECall cres 2 (CThen 9); ECall cres 1 CCountDown; ECall cres 0 CWait].
Proof.
  assert (G : exists c, run (clprog false) (cl_start 3 1 7)
    (ccall 0 CWait ++ [LCall unit 1 CCountDown] ++ ccall 2 (CThen 9) ++ [LRun cop 1 [] tt; LRun cop 0 [] tt; LRun cop 1 [] tt]) = Some c /\
    hist c = [EDone 1 CCountDown (CCompleted 9); EDone 0 CWait CVoid; EDone 2 (CThen 9) (CFun 7);
            ECall cres 2 (CThen 9); ECall cres 1 CCountDown; ECall cres 0 CWait]).
  { eexists. split; [vm_compute; reflexivity|reflexivity]. }
  destruct G as (c & H1 & H2). exists c. split; [eexists; exact H1|exact H2].
Qed.

Theorem C18_comes_to_rest : forall threads count f c, cl_reachable threads count f c ->
  exists ls c', run (clprog false) c ls = Some c' /\ (quiescent c' \/ In (Crashed ck cop ccv unit) (thr c')) /\
    Forall (fun lb => match lb with LRun _ _ _ _ => True | _ => False end) ls.
Proof. intros threads count f c. exact (ranked_settles tt cl_ranked (c := c)). Qed.
Print Assumptions C18_comes_to_rest.

(** ** A concrete case: two waiters, two counts *)

Definition case_run1 : list (label cop unit) := ccall 0 CWait ++ ccall 1 CTryWait ++ ccall 2 CCountDown.
Definition case_run2 : list (label cop unit) :=
  ccall 3 CSync ++ [LRun cop 0 [] tt; LRun cop 1 [] tt; LRun cop 3 [] tt].
Example C18_case : exists c2, run (clprog false) (final 4 2 case_run1) case_run2 = Some c2 /\
  quiescent c2 /\ c_blocked (final 4 2 case_run1) 0 CWait /\ downs (hist (final 4 2 case_run1)) = 1 /\
  downs (hist c2) = 2 /\
  firstn 3 (hist c2) = [EDone 3 CSync (CCompleted 7); EDone 1 CTryWait (CBool true); EDone 0 CWait CVoid].
Proof.
  eexists. split; [vm_compute; reflexivity|]. split; [vm_compute; reflexivity|].
  split; [exists tt, CVLeave, (CInside CWait); vm_compute; reflexivity|]. vm_compute. auto.
Qed.
