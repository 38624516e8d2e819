(** * Property C15: boost::latch

    Model: LT_Model.v; specification: LT_Spec.v. *)

From Verif Require Import MonTrace LT_Model LT_Spec LT_Proofs.

(** [threads] threads use a latch constructed with [count]. *)
Definition lt_reachable (threads count : nat) (c : ltconf) : Prop :=
  reachable ltprog threads (latch_new count) tt c.
Definition lt_init (threads count : nat) : ltconf := init lk lop lres lcv threads (latch_new count) tt.

(** A call that says the latch is open (wait, count_down_and_wait and try_wait, timed waits and
    try_count_down with the positive result) returns only after [count] calls counting down had been started. *)
Theorem C15_not_before_zero : forall threads count c t op r h1 h2,
  lt_reachable threads count c -> no_reset (hist c) ->
  hist c = h1 ++ EDone t op r :: h2 -> says_open op r = true ->
  count <= started h2.
Proof. exact open_count. Qed.
Print Assumptions C15_not_before_zero.

(** A call that says the latch is still closed (time-out, try_wait false, try_count_down false) takes
    effect while fewer than [count] calls counting down have returned. *)
Theorem C15_closed_only_before_zero : forall threads count c t op r h1 h2,
  lt_reachable threads count c -> no_reset (hist c) ->
  hist c = h1 ++ EDone t op r :: h2 -> says_closed op r = true ->
  returned h2 < count.
Proof. exact closed_count. Qed.
Print Assumptions C15_closed_only_before_zero.

(** Once [count] calls counting down have been made, nobody stays blocked (also with interrupted,
    timed-out and spuriously woken threads). *)
Theorem C15_all_released : forall threads count c t,
  lt_reachable threads count c -> no_reset (hist c) -> quiescent c ->
  count <= started (hist c) -> ~ blocked c t.
Proof. exact quiet_open. Qed.
Print Assumptions C15_all_released.

(** Quiescence is where every execution ends, unless count_down is called on an open latch. *)
Theorem C15_comes_to_rest : forall threads count c, lt_reachable threads count c ->
  exists ls c', run ltprog c ls = Some c' /\ (quiescent c' \/ In (Crashed lk lop lcv unit) (thr c')) /\
    Forall (fun lb => match lb with LRun _ _ _ _ => True | _ => False end) ls.
Proof. intros threads count c. exact (settles_or_crashes tt lt_direct (c := c)). Qed.
Print Assumptions C15_comes_to_rest.

(** With reset() at any time: a call that says the latch is open was made while the count was zero at
    some moment during that very call. *)
Theorem C15_reset_not_early : forall threads count ls c lb c' t op r,
  run ltprog (lt_init threads count) ls = Some c -> step ltprog c lb = Some c' ->
  hist c' = EDone t op r :: hist c -> says_open op r = true ->
  l_count (sh c') = 0 \/
  exists ls1 ls2 c1 h, ls = ls1 ++ ls2 /\ run ltprog (lt_init threads count) ls1 = Some c1 /\
    run ltprog c1 ls2 = Some c /\ inside c1 t op /\ l_count (sh c1) = 0 /\
    hist c = h ++ hist c1 /\ ~ returns_in t h.
Proof. exact open_saw_zero. Qed.
Print Assumptions C15_reset_not_early.

(** And a thread blocked when the count is counted down to zero returns, even if the latch is reset at
    once and other threads wait for the next round. *)
Theorem C15_reset_releases : forall threads count c1 lb c2 ls c3 t t' op r,
  lt_reachable threads count c1 -> blocked c1 t ->
  step ltprog c1 lb = Some c2 -> hist c2 = EDone t' op r :: hist c1 -> counts_down op = true ->
  l_count (sh c1) <> 0 -> l_count (sh c2) = 0 ->
  run ltprog c2 ls = Some c3 -> quiescent c3 ->
  exists h, hist c3 = h ++ hist c2 /\ returns_in t h.
Proof. exact reset_releases. Qed.
Print Assumptions C15_reset_releases.

(** ** Concrete cases *)

Notation lcall t op := [LCall unit t op; LRun lop t [] tt].
Notation lrun t := [LRun lop t [] tt].

(** Two counted down, one waiting thread and one in count_down_and_wait released. *)
Example C15_case_open : exists c, lt_reachable 3 2 c /\ no_reset (hist c) /\ quiescent c /\
  started (hist c) = 2 /\
  hist c = [EDone 1 LSync RVoid; EDone 0 LWait RVoid; EDone 2 LCountDown RVoid; ECall _ 2 LCountDown;
            ECall _ 1 LSync; ECall _ 0 LWait].
Proof.
  eexists. split; [exists (lcall 0 LWait ++ lcall 1 LSync ++ lcall 2 LCountDown ++ lrun 0 ++ lrun 1); vm_compute; reflexivity|].
  repeat split; vm_compute; auto. intros t n H.
  repeat (destruct H as [H|H]; [discriminate|]). exact H.
Qed.

(** A timed wait that times out while one count is missing. *)
Example C15_case_closed : exists c h2, lt_reachable 2 2 c /\ no_reset (hist c) /\
  hist c = [] ++ EDone 0 LWaitTimed (RTimeout true) :: h2 /\ returned h2 = 1.
Proof.
  eexists. eexists. split; [exists (lcall 0 LWaitTimed ++ lcall 1 LCountDown ++ [LTimeout lop unit 0] ++ lrun 0); vm_compute; reflexivity|].
  repeat split; vm_compute; auto. intros t n H.
  repeat (destruct H as [H|H]; [discriminate|]). exact H.
Qed.

(** A reset between the completion and the wake-up of the waiter. *)
Example C15_case_reset : exists c1 lb c2 ls c3 h, lt_reachable 2 1 c1 /\ blocked c1 0 /\
  step ltprog c1 lb = Some c2 /\ hist c2 = EDone 1 LCountDown RVoid :: hist c1 /\
  l_count (sh c1) = 1 /\ l_count (sh c2) = 0 /\
  run ltprog c2 ls = Some c3 /\ quiescent c3 /\ l_count (sh c3) = 7 /\
  hist c3 = h ++ hist c2 /\ h = [EDone 0 LWait RVoid; EDone 1 (LReset 7) RVoid; ECall _ 1 (LReset 7)].
Proof.
  eexists. exists (LRun lop 1 [] tt). eexists. exists (lcall 1 (LReset 7) ++ lrun 0). eexists. eexists.
  split; [exists (lcall 0 LWait ++ [LCall unit 1 LCountDown]); vm_compute; reflexivity|].
  split; [unfold blocked; vm_compute; eauto 6|]. split; [vm_compute; reflexivity|].
  repeat split; vm_compute; auto.
Qed.
