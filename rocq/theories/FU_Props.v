(** * Theorems about futures: C45, C46, C47, C48, C49, C50, C53, C54 *)
From Verif Require Import FU_More.

(** C45.  Any number [n] of threads use one shared state through a promise, a packaged_task or a deferred function [kd], with futures.
    Every call returns what the outcome decided before it (by the first successful set_value, set_exception, destruction or end of the function)
    requires ([legal]); no call is undefined. *)
Theorem future_outcome : forall kd iag n c, reachable (fuprog iag (ops_of kd false false)) n (finit kd) tt c ->
  (forall h2 t op r h1, hist c = h2 ++ EDone t op r :: h1 -> legal (decided h1) op r) /\
  ~ In (Crashed fk fop fcv unit) (thr c).
Proof.
  intros kd iag n c Hr. assert (Hal : forall op, ops_of kd false false op = true -> std kd op = true) by auto.
  split; [exact (i_legal (Inv_reachable Hal Hr))|exact (no_crash Hal Hr)].
Qed.
Print Assumptions future_outcome.

(** C45.  In particular: an outcome once seen by get of any thread is seen by every later get. *)
Theorem future_outcome_stable : forall kd iag n c h3 t2 x2 r2 h2 t1 x1 r1 h1,
  reachable (fuprog iag (ops_of kd false false)) n (finit kd) tt c ->
  hist c = h3 ++ EDone t2 OGetSh (x2, r2) :: h2 ++ EDone t1 OGetSh (x1, r1) :: h1 ->
  r1 <> RIntr -> r2 <> RIntr -> r1 <> RMoved -> r2 <> RMoved -> r1 = r2.
Proof.
  intros kd iag n c h3 t2 x2 r2 h2 t1 x1 r1 h1 Hr Hh N1 N2 M1 M2. destruct (future_outcome kd iag n c Hr) as [HL _].
  assert (Hh' : hist c = (h3 ++ EDone t2 OGetSh (x2, r2) :: h2) ++ EDone t1 OGetSh (x1, r1) :: h1) by (rewrite Hh, <- app_assoc; reflexivity).
  pose proof (HL _ _ _ _ _ Hh) as L2. pose proof (HL _ _ _ _ _ Hh') as L1.
  assert (D : forall h d, decided h = Some d -> forall h', decided (h' ++ h) = Some d).
  { intros h d Hd h'. induction h' as [|ev h' IH]; simpl; auto. now rewrite IH. }
  unfold legal in L1, L2. cbn [fst snd] in *. destruct L1 as [L1a L1], L2 as [L2a L2].
  set (d1 := match x1 with Some o => Some o | None => decided h1 end) in *.
  assert (E1 : exists o, d1 = Some o) by (destruct r1; try contradiction; try congruence; eauto). destruct E1 as [o E1].
  assert (E2 : decided (EDone t1 OGetSh (x1, r1) :: h1) = Some o).
  { cbn. unfold d1 in E1. destruct x1 as [o1|]; [rewrite L1a by congruence; exact E1|rewrite E1; reflexivity]. }
  specialize (D _ _ E2 h2). rewrite D in *. destruct x2 as [o2|]; [discriminate L2a; congruence|].
  rewrite E1 in L1. destruct r1; try contradiction; try congruence; destruct r2; try contradiction; congruence.
Qed.
Print Assumptions future_outcome_stable.

(** C46.  When nothing can happen any more without a new call, and the outcome is there (or the future is deferred, so that waiters make it),
    no thread is inside a call; and from every state the calls in progress come to that by steps of the threads alone. *)
Theorem waiters_released : forall kd iag n c, reachable (fuprog iag (ops_of kd false false)) n (finit kd) tt c -> quiescent c ->
  decided (hist c) <> None \/ kd = KDeferred -> forall t, t < length (thr c) -> exists l, nth_error (thr c) t = Some (Idle fk fop fcv l).
Proof. intros kd iag n c Hr Hq Hd t Ht. eapply at_rest; eauto. Qed.
Print Assumptions waiters_released.
Theorem futures_settle : forall kd iag n c, reachable (fuprog iag (ops_of kd false false)) n (finit kd) tt c ->
  exists ls c', run (fuprog iag (ops_of kd false false)) c ls = Some c' /\ quiescent c' /\ Forall (fun lb => match lb with LRun _ _ _ _ => True | _ => False end) ls.
Proof. intros kd iag n c Hr. eapply settles; eauto. Qed.
Print Assumptions futures_settle.

(** C47.  After the destruction of an unsatisfied promise the future is ready, and get throws broken_promise. *)
Theorem broken_promise_partial : forall iag n c h3 t2 op x r h2 t1 y h1,
  reachable (fuprog iag (ops_of KPromise false false)) n (finit KPromise) tt c ->
  hist c = h3 ++ EDone t2 op (x, r) :: h2 ++ EDone t1 ODestroy y :: h1 -> decided h1 = None ->
  match op with OGetSh => r = RExc EBroken \/ r = RIntr | OReady => r = RBool true | OHasExc => r = RBool true | OSet _ => r = RAlready | _ => True end.
Proof.
  intros iag n c h3 t2 op x r h2 t1 y h1 Hr Hh Hd. destruct (future_outcome KPromise iag n c Hr) as [HL _].
  pose proof (HL _ _ _ _ _ Hh) as L.
  assert (D : decided (h2 ++ EDone t1 ODestroy y :: h1) = Some (Exc EBroken)).
  { clear - Hd. induction h2 as [|ev h2 IH]; simpl; [rewrite Hd; destruct y; reflexivity|now rewrite IH]. }
  rewrite D in L. unfold legal in L. cbn [fst snd] in L. destruct L as [La L].
  destruct x as [o|]; [discriminate La; congruence|]. destruct op; auto; destruct r; try contradiction; try congruence; auto.
  - destruct L; discriminate.
  - left. congruence.
  - cbn in L. congruence.
Qed.
Print Assumptions broken_promise_partial.

Notation r t e := (LRun fop t [] e).
Notation cl t op := (LCall outc t op).
Ltac witness P n s ls := let c := fresh "c" in let E := fresh "E" in
  destruct (run P (init fk fop res fcv n s tt) ls) as [c|] eqn:E; [|vm_compute in E; discriminate]; exists c; split; [exists ls; exact E|]; vm_compute in E; injection E as <-.

(** C47.  Not so if the promise is assigned another promise: its old state never becomes ready, and a thread waiting on it stays asleep. *)
Theorem broken_promise_assign_refuted : exists c, reachable (fuprog true (ops_of KPromise false false)) 3 (finit KPromise) tt c /\
  In (EDone 1 OAssign (None, ROk)) (hist c) /\ hd_error (hist c) = Some (EDone 2 OReady (None, RBool false)) /\ quiescent c /\
  nth_error (thr c) 0 = Some (Asleep tt OWait CWaiters (KLoop OWait)).
Proof.
  witness (fuprog true (ops_of KPromise false false)) 3 (finit KPromise) [cl 0 OWait; r 0 (Val 0); cl 1 OAssign; r 1 (Val 0); cl 2 OReady; r 2 (Val 0)].
  repeat split; simpl; auto.
Qed.
Print Assumptions broken_promise_assign_refuted.

(** C48.  With the deferred-notification setters: once has_value has returned true and get a value [v], every later setter throws
    promise_already_satisfied, and every later get gives [v] (or reports that it was moved out). *)
Theorem deferred_setters_partial : forall iag n c t1 v x1 h1 c' ls,
  reachable (fuprog iag (ops_of KPromise true false)) n (finit KPromise) tt c -> hist c = EDone t1 OGetSh (x1, RVal v) :: h1 ->
  run (fuprog iag (ops_of KPromise true false)) c ls = Some c' ->
  forall h3 t op x r h2, hist c' = h3 ++ EDone t op (x, r) :: h2 ++ hist c ->
  match op with
  | OSet _ | OSetDef _ => r = RAlready
  | OGetSh | OGet => match r with RVal w => w = v | RExc _ => False | _ => True end
  | _ => True end.
Proof.
  intros iag n c t1 v x1 h1 c' ls Hr Hh Hrun h3 t op x r h2 Hh'.
  set (P := fuprog iag (ops_of KPromise true false)) in *.
  assert (HF : fixedv v (sh c)).
  { destruct (event_step P [] _ _ Hr Hh) as (c1 & lb & c2 & Hr1 & Hs & E1 & E2 & (ls2 & Hls)). 
    destruct (J_reachable Hr1) as [D1 Hpl].
    assert (F2 : fixedv v (sh c2)).
    { apply step_inv in Hs. destruct Hs as
       [t' l op' Ht Hp ->|t' ps e l op' k s' ns o thr' Ht Hfr Hd ->|t' p l n' ns thr' Ht Hd ->
       |t' l op' cv k Ht ->|t' l op' cv k k' Ht Hk ->|t' l op' cv k k' Ht Hk ->|t' l op' k k' Ht Hk ->]; cbn [hist] in E2;
       try (exfalso; rewrite E1 in E2; apply (f_equal (@length _)) in E2; simpl in E2; lia); [rewrite E1 in E2; discriminate|].
      pose proof (Forall_nth_error Hpl Ht) as [Hx Hz]. cbn [frag fuprog] in Hfr. subst op'.
      pose proof (frag_no_fin _ _ _ _ _ _ _ _ Hfr) as F1.
      destruct o as [r'|r' ns'|cv k'|k'|]; try contradiction; cbn [after snd] in E2; rewrite E1 in E2;
        try (exfalso; apply (f_equal (@length _)) in E2; simpl in E2; lia).
      injection E2 as <- Ek Er. subst r'. cbn [sh].
      destruct (sh c1) as [v0 x0 dn cs df vl tk stt cl]. cbn in D1. subst df. destruct k as [op'|op'|op'|op'|w|w|op']; try contradiction; cbn [kop] in Ek; try discriminate; subst op';
        destruct iag; cbn [ffrag] in Hfr; unfold wait_part, conclude, look in Hfr; cbn [val exc done cons defd taken] in Hfr;
        destruct dn; try discriminate; destruct x0; try discriminate; destruct v0; try discriminate; destruct tk; inversion Hfr; subst; repeat split. }
    (* between c2 and c there is no event; but the state may have changed *)
    destruct (@fixed_run iag true v ls2 c2 c) as (_ & F & _); auto.
    apply (@J_reachable iag true n). eapply reachable_step; [exact Hr1|]. exact Hs. }
  destruct (@fixed_run iag true v ls c c' (J_reachable Hr) HF Hrun) as (_ & _ & HL).
  specialize (HL _ _ _ _ _ Hh'). assert (Hle : length (hist c) <= length (h2 ++ hist c)) by (rewrite app_length; lia). specialize (HL Hle). unfold after_value in HL.
  destruct op; auto; congruence.
Qed.
Print Assumptions deferred_setters_partial.

(** C48: once a deferred setter (set_value_at_thread_exit, ...) has succeeded, the destruction of the promise does not store
    broken_promise, whether or not the value has been announced yet. *)
Theorem deferred_setters_survive_destructor iag n c t o h3 h2 h1 t' x :
  reachable (fuprog iag (ops_of KPromise true false)) n (finit KPromise) tt c ->
  hist c = h3 ++ EDone t' ODestroy x :: h2 ++ EDone t (OSetDef o) (None, ROk) :: h1 -> x = (None, ROk).
Proof.
  intros Hr E. destruct (DD_reachable Hr) as (_ & H). eapply H; [exact E|]. exists t, o. apply in_or_app. right. left. reflexivity.
Qed.
Print Assumptions deferred_setters_survive_destructor.
Example deferred_setters_survive_destructor_ex : exists c, reachable (fuprog true (ops_of KPromise true false)) 2 (finit KPromise) tt c /\
  exists h2 h1, hist c = [] ++ EDone 0 ODestroy (None, ROk) :: h2 ++ EDone 0 (OSetDef (Val 3)) (None, ROk) :: h1 /\ done (sh c) = false.
Proof.
  eexists. split; [exists [LCall outc 0 (OSetDef (Val 3)); LRun fop 0 [] (Val 0); LCall outc 0 ODestroy; LRun fop 0 [] (Val 0)]; vm_compute; reflexivity|].
  exists [ECall res 0 ODestroy], [ECall res 0 (OSetDef (Val 3))]. split; reflexivity.
Qed.

(** C48.  But before the notification, a second deferred setter succeeds and replaces the outcome; and after an exception is
    ready, set_exception_deferred still succeeds, so that two calls of get see different outcomes. *)
Theorem deferred_setters_refuted :
  (exists c, reachable (fuprog true (ops_of KPromise true false)) 1 (finit KPromise) tt c /\
     In (EDone 0 (OSetDef (Val 1)) (None, ROk)) (hist c) /\ In (EDone 0 (OSetDef (Val 2)) (None, ROk)) (hist c) /\
     hd_error (hist c) = Some (EDone 0 OGetSh (None, RVal 2))) /\
  (exists c, reachable (fuprog true (ops_of KPromise true false)) 1 (finit KPromise) tt c /\
     In (EDone 0 OGetSh (None, RExc (EUser 1))) (hist c) /\ hd_error (hist c) = Some (EDone 0 OGetSh (None, RExc (EUser 2)))).
Proof.
  split.
  - witness (fuprog true (ops_of KPromise true false)) 1 (finit KPromise) [cl 0 (OSetDef (Val 1)); r 0 (Val 0); cl 0 (OSetDef (Val 2)); r 0 (Val 0); cl 0 ONotify; r 0 (Val 0); cl 0 OGetSh; r 0 (Val 0)].
    repeat split; simpl; auto 20.
  - witness (fuprog true (ops_of KPromise true false)) 1 (finit KPromise)
      [cl 0 (OSet (Exc (EUser 1))); r 0 (Val 0); cl 0 OGetSh; r 0 (Val 0); cl 0 (OSetDef (Exc (EUser 2))); r 0 (Val 0); cl 0 OGetSh; r 0 (Val 0)].
    repeat split; simpl; auto 20.
Qed.
Print Assumptions deferred_setters_refuted.

(** C49.  With BOOST_THREAD_PROVIDES_FUTURE_INVALID_AFTER_GET: after one get of a unique future has returned or thrown (other than future_uninitialized), every get
    throws future_uninitialized; no get ever hands out a moved-from value; and get throws future_uninitialized only if another get was called before. *)
Definition gets_called (h : list fevent) : nat := length (filter (fun ev => match ev with ECall _ _ OGet => true | _ => false end) h).
Theorem get_once_partial : forall kd n c h2 t x r h1,
  reachable (fuprog true (fun op => ops_of kd false false op && match op with OGetOr _ => false | _ => true end)) n (finit kd) tt c ->
  hist c = h2 ++ EDone t OGet (x, r) :: h1 ->
  (forall t' x' r', In (EDone t' OGet (x', r')) h1 -> r' <> RUninit -> r = RUninit) /\
  r <> RMoved /\ (r = RUninit -> 2 <= gets_called h1).
Proof.
  intros kd n c h2 t x r h1 Hr Hh.
  assert (Hr' : reachable (fuprog true (getal kd)) n (finit kd) tt c).
  { destruct Hr as [ls Hls]. exists ls. revert Hls. generalize (init fk fop res fcv n (finit kd) tt). induction ls as [|lb ls IH]; intros c0; simpl; auto.
    intros Hrun. match type of Hrun with context [step ?p c0 lb] => destruct (step p c0 lb) as [c1|] eqn:E; [|discriminate] end.
    enough (E' : step (fuprog true (getal kd)) c0 lb = Some c1) by (rewrite E'; auto). rewrite <- E.
    unfold step. destruct lb; try reflexivity. cbn [pre fuprog]. unfold getal.
    replace (ops_of kd false false op && noget op) with (ops_of kd false false op && match op with OGetOr _ => false | _ => true end); [reflexivity|].
    destruct op; try reflexivity. destruct kd; reflexivity. }
  destruct (get_event _ _ _ _ _ Hr' Hh) as (G1 & G2 & G3). split; [|split; [exact G2|]].
  - intros t' x' r' Hin Hn. apply G1. clear - Hin Hn. induction h1 as [|ev h1 IH]; [destruct Hin|]. destruct Hin as [->|Hin]; simpl; [destruct r'; try congruence; lia|]. specialize (IH Hin). lia.
  - intros E. specialize (G3 E). replace (gets_called h1) with (tot getcall h1); auto.
    clear. induction h1 as [|ev h1 IH]; auto. unfold gets_called in *. simpl. destruct ev as [t []|]; simpl; rewrite ?IH; auto.
Qed.
Print Assumptions get_once_partial.

(** C49.  Without that configuration macro (the default) a second get hands out the moved-from value; with it, a get that is interrupted loses the result. *)
Theorem get_once_refuted :
  (exists c, reachable (fuprog false (ops_of KPromise false false)) 1 (finit KPromise) tt c /\
     In (EDone 0 OGet (None, RVal 7)) (hist c) /\ hd_error (hist c) = Some (EDone 0 OGet (None, RMoved))) /\
  (exists c, reachable (fuprog true (ops_of KPromise false false)) 2 (finit KPromise) tt c /\ decided (hist c) = Some (Val 7) /\
     (forall t x v, ~ In (EDone t OGet (x, RVal v)) (hist c)) /\ hd_error (hist c) = Some (EDone 0 OGet (None, RUninit))).
Proof.
  split.
  - witness (fuprog false (ops_of KPromise false false)) 1 (finit KPromise) [cl 0 (OSet (Val 7)); r 0 (Val 0); cl 0 OGet; r 0 (Val 0); cl 0 OGet; r 0 (Val 0)].
    repeat split; simpl; auto 20.
  - witness (fuprog true (ops_of KPromise false false)) 2 (finit KPromise) [cl 0 OGet; r 0 (Val 0); LIntr fop outc 0; r 0 (Val 0); cl 1 (OSet (Val 7)); r 1 (Val 0); cl 0 OGet; r 0 (Val 0)].
    split; [reflexivity|]. split; [|reflexivity]. simpl. intros t x v Hin. repeat (destruct Hin as [Hin|Hin]; [discriminate|]). exact Hin.
Qed.
Print Assumptions get_once_refuted.

(** C50.  get_or of a unique future gives the value, or the alternative [w] if the outcome is an exception. *)
Theorem get_or_partial : forall kd iag n c h2 t w x r h1, reachable (fuprog iag (ops_of kd false false)) n (finit kd) tt c ->
  hist c = h2 ++ EDone t (OGetOr w) (x, r) :: h1 ->
  let d := match x with Some o => Some o | None => decided h1 end in
  match r with
  | RVal v => match d with Some (Val v') => v = v' | Some (Exc _) => v = w | None => False end
  | RMoved => exists v, d = Some (Val v)
  | RUninit | RIntr => True
  | _ => False end.
Proof.
  intros kd iag n c h2 t w x r h1 Hr Hh d. destruct (future_outcome kd iag n c Hr) as [HL _].
  pose proof (HL _ _ _ _ _ Hh) as L. unfold legal in L. cbn [fst snd] in L. destruct L as [_ L]. fold d in L.
  destruct r; auto. destruct L as [->|[-> [e ->]]]; auto.
Qed.
Print Assumptions get_or_partial.

(** C50.  get_or of a shared_future throws the stored exception. *)
Theorem get_or_shared_refuted : exists c, reachable (fuprog true (ops_of KPromise false false)) 1 (finit KPromise) tt c /\ hd_error (hist c) = Some (EDone 0 (OGetOrSh 5) (None, RExc (EUser 1))).
Proof.
  witness (fuprog true (ops_of KPromise false false)) 1 (finit KPromise) [cl 0 (OSet (Exc (EUser 1))); r 0 (Val 0); cl 0 (OGetOrSh 5); r 0 (Val 0)].
  reflexivity.
Qed.
Print Assumptions get_or_shared_refuted.

(** C53.  A packaged_task: in any part of an execution in which no reset() returns, the function is called at most once ([calls] counts the calls made);
    it is called again only if it has been reset. *)
Theorem task_once_partial : forall iag n c ls c' h,
  reachable (fuprog iag (ops_of KTask false true)) n (finit KTask) tt c ->
  run (fuprog iag (ops_of KTask false true)) c ls = Some c' -> hist c' = h ++ hist c ->
  (forall t x, ~ In (EDone t OReset x) h) ->
  calls (sh c') <= calls (sh c) + 1 /\ (started (sh c) = true -> calls (sh c') = calls (sh c)).
Proof.
  intros iag n c ls c' h Hr Hrun Hh Hn. destruct (JT_run iag ls (JT_reachable Hr) Hrun) as (h' & Eh & _ & L & H).
  assert (h' = h) as -> by (eapply app_inv_tail; rewrite <- Eh; exact Hh).
  assert (Hx : existsb is_reset h = false).
  { clear - Hn. induction h as [|ev h IH]; auto. simpl. rewrite IH; [|intros t x Hi; apply (Hn t x); right; exact Hi]. rewrite orb_false_r.
    destruct ev as [|t [] x]; auto. exfalso. apply (Hn t x). left. reflexivity. }
  specialize (H Hx). unfold room in H. destruct (started (sh c)), (started (sh c')); cbn in H; lia.
Qed.
Print Assumptions task_once_partial.

(** C53.  Without resets: at most one call of operator() calls the function, all others throw task_already_started. *)
Theorem task_run_once : forall iag n c, reachable (fuprog iag (ops_of KTask false false)) n (finit KTask) tt c ->
  calls (sh c) <= 1 /\ length (filter (fun ev => match ev with EDone _ ORun (_, ROk) => true | _ => false end) (hist c)) <= 1 /\ (forall h2 t x r h1, hist c = h2 ++ EDone t ORun (x, r) :: h1 -> (r = ROk /\ x <> None) \/ (r = RStarted /\ x = None)).
Proof.
  intros iag n c Hr. assert (Hal : forall op, ops_of KTask false false op = true -> std KTask op = true) by auto.
  destruct (Inv_reachable Hal Hr) as [_ HN _ HL]. pose proof (n_calls _ _ _ HN) as N. cbn in N.
  assert (N1 : calls (sh c) <= 1) by (destruct (started (sh c)); cbn in N; lia). split; auto.
  pose proof (calls_runs _ _ _ _ _ Hr (no_crash Hal Hr)) as R.
  assert (HL' : forall h2 t x r h1, hist c = h2 ++ EDone t ORun (x, r) :: h1 -> (r = ROk /\ x <> None) \/ (r = RStarted /\ x = None)).
  { intros h2 t x r h1 E. pose proof (HL _ _ _ _ _ E) as [_ L]. cbn in L. destruct r; try contradiction; auto. right. split; auto.
    destruct (event_step _ _ _ _ Hr E) as (c1 & lb & c2 & Hr1 & Hs & E1 & E2 & _). apply step_inv in Hs. pose proof (ok0_reachable _ _ _ _ _ Hr1) as H0.
    destruct Hs as
     [t' l op Ht Hp ->|t' ps e l op k s' ns o thr' Ht Hfr Hd ->|t' p l n' ns thr' Ht Hd ->
     |t' l op cv k Ht ->|t' l op cv k k' Ht Hk ->|t' l op cv k k' Ht Hk ->|t' l op k k' Ht Hk ->]; cbn [hist] in E2;
     try (exfalso; rewrite E1 in E2; apply (f_equal (@length _)) in E2; simpl in E2; lia); [rewrite E1 in E2; discriminate|].
    pose proof (Forall_nth_error H0 Ht) as [Hx Ha]. cbn [frag fuprog] in Hfr. subst op. pose proof (frag_no_fin _ _ _ _ _ _ _ _ Hfr) as F1.
    destruct o as [r'|r' ns'|cv k'|k'|]; try contradiction; cbn [after snd] in E2; rewrite E1 in E2;
      try (exfalso; apply (f_equal (@length _)) in E2; simpl in E2; lia).
    injection E2 as <- Ek Er. subst r'. destruct (sh c1) as [v0 x0 dn cs df vl tk stt cl].
    destruct k as [op'|op'|op'|op'|w|w|op']; cbn [kop] in Ek; try discriminate; subst op'; cbn in Hfr; try destruct stt; try destruct dn; inversion Hfr; subst; auto. }
  split; auto. assert (G : length (filter (fun ev => match ev with EDone _ ORun (_, ROk) => true | _ => false end) (hist c)) <= runs (hist c)); [|lia].
  clear - HL'. assert (X : forall ev, In ev (hist c) -> match ev with EDone _ ORun (x, ROk) => x <> None | _ => True end).
  { intros ev Hin. destruct ev as [|t [] [x []]]; auto. apply in_split in Hin as (l1 & l2 & E). destruct (HL' _ _ _ _ _ E) as [[_ H]|[H _]]; congruence. }
  clear HL'. induction (hist c) as [|ev h IH]; auto. pose proof (X ev (or_introl eq_refl)) as Xe. specialize (IH (fun e' H => X e' (or_intror H))).
  simpl. destruct ev as [|t op [[o|] q]]; simpl; [lia|destruct op; try lia; destruct q; simpl; lia|]. destruct op; simpl; try lia. destruct q; simpl; try lia. congruence.
Qed.
Print Assumptions task_run_once.

(** C53.  reset() does not give a fresh result: the future is still ready after it, and after a run that threw, the old exception sticks even if the
    function then returns a value. *)
Theorem task_reset_refuted :
  (exists c, reachable (fuprog true (ops_of KTask false true)) 1 (finit KTask) tt c /\ calls (sh c) = 1 /\    exists h, hist c = EDone 0 OReady (None, RBool true) :: ECall res 0 OReady :: EDone 0 OReset (None, ROk) :: h) /\ (exists c, reachable (fuprog true (ops_of KTask false true)) 1 (finit KTask) tt c /\    exists h, hist c = EDone 0 OGetSh (None, RExc (EUser 1)) :: ECall res 0 OGetSh :: EDone 0 ORun (Some (Val 2), ROk) :: h).
Proof.
  split.
  - witness (fuprog true (ops_of KTask false true)) 1 (finit KTask) [cl 0 ORun; r 0 (Val 0); r 0 (Val 1); cl 0 OReset; r 0 (Val 0); cl 0 OReady; r 0 (Val 0)].
    split; [reflexivity|eexists; reflexivity].
  - witness (fuprog true (ops_of KTask false true)) 1 (finit KTask) [cl 0 ORun; r 0 (Val 0); r 0 (Exc (EUser 1)); cl 0 OReset; r 0 (Val 0); cl 0 ORun; r 0 (Val 0); r 0 (Val 2); cl 0 OGetSh; r 0 (Val 0)].
    eexists; reflexivity.
Qed.
Print Assumptions task_reset_refuted.

(** C54.  A deferred function: it is called at most once; when the outcome is there it has been called exactly once, in the call of some thread's wait or get, and
    the outcome is what it returned; timed waits never call it, and report deferred as long as no wait without time limit has been called. *)
Theorem deferred_once : forall iag n c, reachable (fuprog iag (ops_of KDeferred false false)) n (finit KDeferred) tt c ->
  calls (sh c) <= 1 /\ (forall o, decided (hist c) = Some o -> calls (sh c) = 1 /\ exists t op q, In (EDone t op (Some o, q)) (hist c) /\ calls_fun KDeferred op = true) /\ (forall h2 t x q h1, hist c = h2 ++ EDone t OWaitUntil (x, q) :: h1 ->
     x = None /\ ((forall t' op', In (ECall res t' op') h1 -> calls_fun KDeferred op' = false) -> q = RDeferred)).
Proof.
  intros iag n c Hr. assert (Hal : forall op, ops_of KDeferred false false op = true -> std KDeferred op = true) by auto.
  pose proof (Inv_reachable Hal Hr) as HI. destruct HI as [_ HN _ HL]. pose proof (n_calls _ _ _ HN) as N. cbn in N. split; [lia|]. split.
  - intros o Ho. pose proof (calls_runs _ _ _ _ _ Hr (no_crash Hal Hr)) as R. pose proof (ok_ran Hr) as HR.
    assert (G : exists t op q, In (EDone t op (Some o, q)) (hist c) /\ calls_fun KDeferred op = true /\ 0 < runs (hist c)).
    { clear - Ho HR. induction (hist c) as [|ev h IH]; [discriminate|]. simpl in Ho. pose proof (HR ev (or_introl eq_refl)) as He. specialize (fun X => IH X (fun e' H => HR e' (or_intror H))).
      destruct (decided h) as [o'|]; [injection Ho as ->; destruct (IH eq_refl) as (t & op & q & A & B & C); exists t, op, q; simpl; repeat split; auto; lia|].
      destruct ev as [|t op [[x|] q]]; try discriminate; [|exfalso; destruct op; try discriminate; destruct He as [He _]; discriminate He].
      destruct He as [He1 He2]. specialize (He2 ltac:(discriminate)). exists t, op, q. simpl. split; [|split; [exact He2|lia]]. left.
      assert (Ho' : Some x = Some o) by (destruct op; try discriminate He1; try discriminate He2; exact Ho). congruence. }
    destruct G as (t & op & q & G1 & G2 & G3). split; [destruct (defd (sh c)); cbn in N; lia|eauto 6].
  - intros h2 t x q h1 E. destruct (deferred_timed _ _ _ _ _ Hr E) as [E1 E2]. split; auto. intros Hc. apply E2.
    clear - Hc. induction h1 as [|ev h1 IH]; auto. simpl. rewrite IH; [|intros t' op' Hi; apply (Hc t' op'); right; exact Hi]. rewrite orb_false_r.
    destruct ev as [t' op'|]; auto. apply (Hc t' op'). left. reflexivity.
Qed.
Print Assumptions deferred_once.

(** C54.  The first thread that starts a wait or get without time limit calls the function itself. *)
Theorem deferred_first_waiter : forall iag n c t l op e, reachable (fuprog iag (ops_of KDeferred false false)) n (finit KDeferred) tt c ->
  calls (sh c) = 0 -> calls_fun KDeferred op = true -> valid (sh c) = true -> nth_error (thr c) t = Some (Ready fcv l op (KStart op)) ->
  exists c', step (fuprog iag (ops_of KDeferred false false)) c (LRun fop t [] e) = Some c' /\ calls (sh c') = 1 /\   nth_error (thr c') t = Some (Ready fcv l op (KFun op)).
Proof. exact deferred_first. Qed.
Print Assumptions deferred_first_waiter.

(** ** The hypotheses are met *)
(** two threads wait, one sets the value, another attempt fails, the waiters see the value *)
Example promise_story : exists c, reachable (fuprog true (ops_of KPromise false false)) 3 (finit KPromise) tt c /\ quiescent c /\ decided (hist c) = Some (Val 7) /\ In (EDone 0 OGetSh (None, RVal 7)) (hist c) /\ In (EDone 1 OGetSh (None, RVal 7)) (hist c) /\ In (EDone 2 (OSet (Exc (EUser 3))) (None, RAlready)) (hist c).
Proof.
  witness (fuprog true (ops_of KPromise false false)) 3 (finit KPromise)
    [cl 0 OGetSh; r 0 (Val 0); cl 1 OGetSh; r 1 (Val 0); cl 2 (OSet (Val 7)); r 2 (Val 0); cl 2 (OSet (Exc (EUser 3))); r 2 (Val 0); r 0 (Val 0); r 1 (Val 0)].
  repeat split; simpl; auto 20.
Qed.
(** a promise destroyed while a thread waits *)
Example broken_story : exists c, reachable (fuprog true (ops_of KPromise false false)) 2 (finit KPromise) tt c /\ exists h2 h1 y, hist c = [] ++ EDone 0 OGetSh (None, RExc EBroken) :: h2 ++ EDone 1 ODestroy y :: h1 /\ decided h1 = None.
Proof.
  witness (fuprog true (ops_of KPromise false false)) 2 (finit KPromise) [cl 0 OGetSh; r 0 (Val 0); cl 1 ODestroy; r 1 (Val 0); r 0 (Val 0)].
  exists [], [ECall res 1 ODestroy; ECall res 0 OGetSh], (None, RBroke). split; reflexivity.
Qed.
(** the deferred setters: a value is notified and seen; a later setter throws *)
Example deferred_setter_story : exists c c', reachable (fuprog true (ops_of KPromise true false)) 1 (finit KPromise) tt c /\ (exists h, hist c = EDone 0 OGetSh (None, RVal 1) :: h) /\ run (fuprog true (ops_of KPromise true false)) c [cl 0 (OSetDef (Val 2)); r 0 (Val 0)] = Some c' /\ hist c' = [] ++ EDone 0 (OSetDef (Val 2)) (None, RAlready) :: [ECall res 0 (OSetDef (Val 2))] ++ hist c.
Proof.
  eexists. eexists. split; [exists [cl 0 (OSetDef (Val 1)); r 0 (Val 0); cl 0 ONotify; r 0 (Val 0); cl 0 OGetSh; r 0 (Val 0)]; vm_compute; reflexivity|].
  split; [eexists; reflexivity|]. split; vm_compute; reflexivity.
Qed.
(** get twice; get_or of an exception *)
Example get_twice_story : exists c, reachable (fuprog true (fun op => ops_of KPromise false false op && match op with OGetOr _ => false | _ => true end)) 1 (finit KPromise) tt c /\ In (EDone 0 OGet (None, RVal 7)) (hist c) /\ In (EDone 0 OGet (None, RUninit)) (hist c).
Proof.
  witness (fuprog true (fun op => ops_of KPromise false false op && match op with OGetOr _ => false | _ => true end)) 1 (finit KPromise)
    [cl 0 (OSet (Val 7)); r 0 (Val 0); cl 0 OGet; r 0 (Val 0); cl 0 OGet; r 0 (Val 0)].
  repeat split; simpl; auto 20.
Qed.
Example get_or_story : exists c, reachable (fuprog true (ops_of KPromise false false)) 1 (finit KPromise) tt c /\ hd_error (hist c) = Some (EDone 0 (OGetOr 5) (None, RVal 5)).
Proof. witness (fuprog true (ops_of KPromise false false)) 1 (finit KPromise) [cl 0 (OSet (Exc (EUser 1))); r 0 (Val 0); cl 0 (OGetOr 5); r 0 (Val 0)]. reflexivity. Qed.
(** a task run by two threads: one calls the function, the other is refused *)
Example task_story : exists c, reachable (fuprog true (ops_of KTask false false)) 2 (finit KTask) tt c /\ calls (sh c) = 1 /\ In (EDone 0 ORun (Some (Val 4), ROk)) (hist c) /\ In (EDone 1 ORun (None, RStarted)) (hist c).
Proof.
  witness (fuprog true (ops_of KTask false false)) 2 (finit KTask) [cl 0 ORun; r 0 (Val 0); cl 1 ORun; r 1 (Val 0); r 0 (Val 4)].
  repeat split; simpl; auto 20.
Qed.
(** a deferred function: a timed wait reports deferred, two threads get, one of them calls the function *)
Example deferred_story : exists c, reachable (fuprog true (ops_of KDeferred false false)) 3 (finit KDeferred) tt c /\ calls (sh c) = 1 /\ decided (hist c) = Some (Val 4) /\ In (EDone 0 OWaitUntil (None, RDeferred)) (hist c) /\ In (EDone 1 OGetSh (Some (Val 4), RVal 4)) (hist c) /\ In (EDone 2 OGetSh (None, RVal 4)) (hist c).
Proof.
  witness (fuprog true (ops_of KDeferred false false)) 3 (finit KDeferred) [cl 0 OWaitUntil; r 0 (Val 0); cl 1 OGetSh; r 1 (Val 0); cl 2 OGetSh; r 2 (Val 0); r 1 (Val 4); r 2 (Val 0)].
  repeat split; simpl; auto 20.
Qed.
