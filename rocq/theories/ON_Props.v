(** * Properties C19, C20 (atomic call_once) and C21 (epoch-based call_once)

    Models: ON_Model.v; specification: ON_Spec.v. *)

From Verif Require Import MonWake ON_Model ON_Spec ON_Proofs.

Definition once_reachable (threads : nat) (c : cfg ostate okp oop ores unit unit) : Prop :=
  reachable onprog threads once_init tt c.
Definition epoch_reachable (W threads : nat) (c : cfg estate okp oop ores unit unit) : Prop :=
  reachable (epprog W) threads (ep_init W) tt c.

Ltac atomic L :=
  eapply (L ostate onprog o_flag o_log (fun _ => True) (fun _ => True) (fun _ => True) on_frag_spec);
  try reflexivity; try (intros; exact I); try (intros; match goal with |- match ?k with _ => _ end => destruct k end; exact I);
  eauto; try (repeat split; auto; fail).

(** ** C19 *)

(** At most one callable of a flag ends normally; callables of one flag do not overlap; none starts after one
    has ended normally. *)
Theorem C19_exactly_once : forall threads c g, once_reachable threads c ->
  ends g (o_log (sh c)) <= 1 /\ well_nested (o_log (sh c)).
Proof. intros threads c g Hr. atomic gen_once. Qed.
Print Assumptions C19_exactly_once.

Theorem C19_no_overlap : forall threads c t t' g, once_reachable threads c ->
  executing c t g -> executing c t' g -> t = t'.
Proof. intros threads c t t' g Hr H1 H2. atomic gen_one_at_a_time. Qed.
Print Assumptions C19_no_overlap.

(** call_once returns normally only after the callable of that flag has ended normally, and throws only if the
    caller's own callable has just thrown. *)
Theorem C19_returns_after_completion : forall threads c lb c' t g r, once_reachable threads c ->
  step onprog c lb = Some c' -> hist c' = EDone t (Once g) r :: hist c ->
  match r with
  | RRan => last_ev g (o_log (sh c')) = Some (CbEnd t g)
  | RSkip => ends g (o_log (sh c')) = 1
  | RThrew => last_ev g (o_log (sh c')) = Some (CbThrow t g)
  end.
Proof. intros threads c lb c' t g r Hr Hs Hh. atomic gen_done. Qed.
Print Assumptions C19_returns_after_completion.

(** ** C20 *)

(** When nothing but callables can make progress, a thread blocked in call_once is waiting for a thread that is
    executing the callable of the same flag. *)
Theorem C20_none_left_behind : forall threads c t g, once_reachable threads c ->
  only_callables_run c -> stuck c t g -> exists t', executing c t' g.
Proof. intros threads c t g Hr Ho Hst. atomic gen_not_stuck. Qed.
Print Assumptions C20_none_left_behind.

(** Hence when all callables have ended, nobody is blocked. *)
Theorem C20_quiescent_free : forall threads c t g, once_reachable threads c -> quiescent c -> ~ stuck c t g.
Proof.
  intros threads c t g Hr Hq Hst.
  assert (Ho : only_callables_run c).
  { intros i x Hi. pose proof (proj1 (forallb_forall _ _) Hq x (nth_error_In _ _ Hi)). destruct x; try discriminate; auto. }
  destruct (C20_none_left_behind _ _ _ _ Hr Ho Hst) as (t' & l & op & H).
  pose proof (proj1 (forallb_forall _ _) Hq _ (nth_error_In _ _ H)). discriminate.
Qed.
Print Assumptions C20_quiescent_free.

(** The flag is open again after exceptions: as long as no callable has ended normally, the next caller runs its
    callable. *)
Theorem C20_retry : forall threads c t g l e, once_reachable threads c -> quiescent c ->
  ends g (o_log (sh c)) = 0 -> nth_error (thr c) t = Some (Idle okp oop unit l) ->
  exists c', run onprog c [LCall bool t (Once g); LRun oop t [] e; LRun oop t [] e] = Some c' /\ executing c' t g.
Proof. intros threads c t g l e Hr Hq He Ht. atomic gen_retry. Qed.
Print Assumptions C20_retry.

(** Every execution in which the callables end comes to rest. *)
Theorem C20_comes_to_rest : forall threads c, once_reachable threads c ->
  exists ls c', run onprog c ls = Some c' /\ (quiescent c' \/ In (Crashed okp oop unit unit) (thr c')) /\
    Forall (fun lb => match lb with LRun _ _ _ _ => True | _ => False end) ls.
Proof. intros threads c. exact (ranked_settles false on_ranked (c := c)). Qed.
Print Assumptions C20_comes_to_rest.

(** ** C21: the same for the epoch-based variant, up to W - 3 initialisations of flags in the process *)

Definition in_range (W : nat) (log : list cbev) : Prop := inits log + 3 <= W.

Lemma ep_start_ok W : 3 <= W ->
  ep_J (ep_init W) /\ (forall g, ev_view (ep_init W) g = Uninit) /\ e_log (ep_init W) = [].
Proof. intros HW. repeat split; simpl; auto; lia. Qed.

Ltac epoch W HW L :=
  eapply (L estate (epprog W) ev_view e_log ep_J (ep_ok W) ep_pc (ep_frag_spec W HW));
  try reflexivity; try exact (ep_okb W HW); try exact (ep_okb2 W HW); try exact (ep_okb W); try exact (ep_okb2 W);
  eauto using ep_pcr, ep_start_ok.

Theorem C21_exactly_once : forall W threads c g, 3 <= W -> epoch_reachable W threads c ->
  in_range W (e_log (sh c)) ->
  ends g (e_log (sh c)) <= 1 /\ well_nested (e_log (sh c)).
Proof. intros W threads c g HW Hr Hok. epoch W HW gen_once. Qed.
Print Assumptions C21_exactly_once.

(** In particular the fast path never returns before the callable has ended normally. *)
Theorem C21_returns_after_completion : forall W threads c lb c' t g r, 3 <= W -> epoch_reachable W threads c ->
  in_range W (e_log (sh c')) ->
  step (epprog W) c lb = Some c' -> hist c' = EDone t (Once g) r :: hist c ->
  match r with
  | RRan => last_ev g (e_log (sh c')) = Some (CbEnd t g)
  | RSkip => ends g (e_log (sh c')) = 1
  | RThrew => last_ev g (e_log (sh c')) = Some (CbThrow t g)
  end.
Proof. intros W threads c lb c' t g r HW Hr Hok Hs Hh. epoch W HW gen_done. Qed.
Print Assumptions C21_returns_after_completion.

Theorem C21_none_left_behind : forall W threads c t g, 3 <= W -> epoch_reachable W threads c ->
  in_range W (e_log (sh c)) ->
  only_callables_run c -> stuck c t g -> exists t', executing c t' g.
Proof. intros W threads c t g HW Hr Hok Ho Hst. epoch W HW gen_not_stuck. Qed.
Print Assumptions C21_none_left_behind.

Theorem C21_retry : forall W threads c t g l e, 3 <= W -> epoch_reachable W threads c ->
  in_range W (e_log (sh c)) -> quiescent c ->
  ends g (e_log (sh c)) = 0 -> nth_error (thr c) t = Some (Idle okp oop unit l) ->
  exists c', run (epprog W) c [LCall bool t (Once g); LRun oop t [] e; LRun oop t [] e] = Some c' /\ executing c' t g.
Proof. intros W threads c t g l e HW Hr Hok Hq He Ht. epoch W HW gen_retry. Qed.
Print Assumptions C21_retry.

(** The bound is exact: initialisation number W - 2 leaves its own caller blocked for ever. *)
Theorem C21_range_refuted : forall W, 3 <= W -> exists c g, epoch_reachable W 1 c /\ quiescent c /\ stuck c 0 g /\
  ends g (e_log (sh c)) = 1.
Proof. exact ep_wraps. Qed.
Print Assumptions C21_range_refuted.

(** ** Concrete cases: two threads, the first attempt throws, the waiter retries *)
Definition on_case : list (label oop bool) :=
  [LCall bool 0 (Once 3); LCall bool 1 (Once 3); LRun oop 0 [] false; LRun oop 1 [] false; LRun oop 0 [] false;
   LRun oop 1 [] false; LRun oop 0 [] true; LRun oop 0 [] false; LRun oop 0 [] false; LRun oop 1 [] false;
   LRun oop 1 [] false].

Example C19_case : exists c, run onprog (init okp oop ores unit 2 once_init tt) on_case = Some c /\
  o_log (sh c) = [CbEnd 1 3; CbStart 1 3; CbThrow 0 3; CbStart 0 3] /\ hd_error (hist c) = Some (EDone 0 (Once 3) RThrew).
Proof. eexists. vm_compute. repeat split. Qed.
Example C20_case : exists c, run onprog (init okp oop ores unit 2 once_init tt) (firstn 6 on_case) = Some c /\
  stuck c 1 3 /\ executing c 0 3 /\ only_callables_run c.
Proof.
  eexists. split; [vm_compute; reflexivity|]. split; [exists tt, tt, (KEnter 3); reflexivity|].
  split; [exists tt, (Once 3); reflexivity|]. intros [|[|[|]]] x; simpl; intros H; inversion H; exact I.
Qed.
Example C21_case : exists c, run (epprog 100) (init okp oop ores unit 2 (ep_init 100) tt) (firstn 8 on_case ++ [LRun oop 1 [] false; LRun oop 1 [] false; LRun oop 1 [] false]) = Some c /\
  e_log (sh c) = [CbEnd 1 3; CbStart 1 3; CbThrow 0 3; CbStart 0 3] /\
  in_range 100 (e_log (sh c)) /\ hd_error (hist c) = Some (EDone 1 (Once 3) RRan).
Proof.
  eexists. split; [vm_compute; reflexivity|]. split; [vm_compute; reflexivity|].
  split; [unfold in_range; cbn; lia|vm_compute; reflexivity].
Qed.
(** After an exception nobody is left in call_once, nothing has ended normally, and both threads can call again: for both variants. *)
Definition on_threw : list (label oop bool) :=
  [LCall bool 0 (Once 3); LRun oop 0 [] false; LRun oop 0 [] false; LRun oop 0 [] true; LRun oop 0 [] false; LRun oop 0 [] false].
Example C20_retry_case : exists c, run onprog (init okp oop ores unit 2 once_init tt) on_threw = Some c /\
  quiescent c /\ o_log (sh c) = [CbThrow 0 3; CbStart 0 3] /\ ends 3 (o_log (sh c)) = 0 /\ nth_error (thr c) 1 = Some (Idle okp oop unit tt) /\
  hist c = [EDone 0 (Once 3) RThrew; ECall ores 0 (Once 3)].
Proof. eexists. split; [vm_compute; reflexivity|]. repeat split; vm_compute; reflexivity. Qed.
Example C21_retry_case : exists c, run (epprog 100) (init okp oop ores unit 2 (ep_init 100) tt) (firstn 5 on_threw) = Some c /\
  quiescent c /\ e_log (sh c) = [CbThrow 0 3; CbStart 0 3] /\ ends 3 (e_log (sh c)) = 0 /\ nth_error (thr c) 1 = Some (Idle okp oop unit tt) /\
  in_range 100 (e_log (sh c)).
Proof. eexists. split; [vm_compute; reflexivity|]. repeat split; try (vm_compute; reflexivity). unfold in_range; cbn; lia. Qed.
Example C21_stuck_case : exists c, run (epprog 100) (init okp oop ores unit 2 (ep_init 100) tt) (firstn 6 on_case) = Some c /\
  stuck c 1 3 /\ executing c 0 3 /\ only_callables_run c /\ in_range 100 (e_log (sh c)).
Proof.
  eexists. split; [vm_compute; reflexivity|]. split; [exists tt, tt, (KEnter 3); reflexivity|].
  split; [exists tt, (Once 3); reflexivity|]. split; [intros [|[|[|]]] x; simpl; intros H; inversion H; exact I|].
  unfold in_range; cbn; lia.
Qed.
