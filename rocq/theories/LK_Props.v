(** * Theorems about the lock objects (C33, C34, C39) *)

From Verif Require Import Monitor MonitorLemmas LK_Model LK_Spec LK_Proofs.
Set Implicit Arguments.

(** C33: whatever the program does with lock objects, at every moment each mutex is held in each mode exactly as often
    as live lock objects own it, plus the locks for which the program itself is responsible. *)
Theorem locks_balanced (ops : list (lop * ans)) (s : lstate) :
  Forall rev_unique ops -> lrun l_init ops = Some s ->
  forall m k, s_hold s m k = s_raw s m k + owners s m k.
Proof. exact (@balanced ops s). Qed.
Print Assumptions locks_balanced.

(** C33: no operation of a lock object unlocks or converts a lock that is not held. *)
Theorem locks_never_unlock_unheld (ops : list (lop * ans)) (s : lstate) op w s' r :
  Forall rev_unique ops -> lrun l_init ops = Some s -> rev_unique (op, w) ->
  lstep s op w = Some (s', r) -> r <> RUB.
Proof. exact (@no_ub ops s op w s' r). Qed.
Print Assumptions locks_never_unlock_unheld.

(** C33: once all lock objects are destroyed, exactly the locks the program is itself responsible for are held; none,
    if it took none by hand. *)
Theorem locks_released_at_end (ops : list (lop * ans)) (s : lstate) :
  Forall rev_unique ops -> lrun l_init ops = Some s -> all_destroyed s ->
  (forall m k, s_hold s m k = s_raw s m k) /\
  (Forall no_manual ops -> forall m k, s_hold s m k = 0).
Proof. exact (@released_at_end ops s). Qed.
Print Assumptions locks_released_at_end.

(** C33: every lock object that no other refers to can be destroyed. *)
Theorem locks_destroyable (ops : list (lop * ans)) (s : lstate) a o :
  Forall rev_unique ops -> lrun l_init ops = Some s -> get s a = Some o ->
  (forall b o', get s b = Some o' -> refers a (Some o') = false) ->
  exists s', lstep s (LDestroy a) AOk = Some (s', RUnit) /\ get s' a = None.
Proof. exact (@destroyable ops s a o). Qed.
Print Assumptions locks_destroyable.

(** A program in which a unique_lock becomes a shared_lock, an upgrade_lock is upgraded in a scope and released, and
    another lock object is moved. *)
Definition lk_demo : list (lop * ans) :=
  [(LCtor KU 0, AOk); (LConv KS 0, AOk); (LCtor KG 1, AOk); (LUpCtor 2, AOk); (LUpMove 3, AOk); (LTry KU 2, AFail);
   (LTryLock 5, AOk); (LMove 5, AOk); (LRev KU 6, AOk); (LDestroy 7, AOk)].
Definition lk_demo_end : list (lop * ans) :=
  lk_demo ++ [(LDestroy 4, AOk); (LDestroy 3, AOk); (LDestroy 6, AOk); (LDestroy 5, AOk); (LDestroy 2, AOk); (LDestroy 1, AOk); (LDestroy 0, AOk)].
Example lk_demo_ok : exists s, lrun l_init lk_demo = Some s /\ Forall rev_unique lk_demo /\
  s_hold s 0 KS = 1 /\ s_hold s 0 KU = 0 /\ s_hold s 1 KU = 1 /\ s_hold s 2 KU = 1 /\ owners s 1 KU = 1 /\ owners s 0 KS = 1.
Proof. eexists. split; [vm_compute; reflexivity|]. split; [repeat constructor|]. vm_compute. repeat split. Qed.
Example lk_demo_end_ok : exists s, lrun l_init lk_demo_end = Some s /\ Forall rev_unique lk_demo_end /\ Forall no_manual lk_demo_end /\
  all_destroyed s /\ s_hold s 1 KU = 0.
Proof. eexists. split; [vm_compute; reflexivity|]. split; [repeat constructor|]. split; [repeat constructor|]. split; [repeat constructor|reflexivity]. Qed.

(** C34: lock(), try_lock() and unlock() in every state of the lock object. *)
Theorem lock_misuse (ops : list (lop * ans)) (s : lstate) a k mx own w :
  Forall rev_unique ops -> lrun l_init ops = Some s -> is_lock s a k mx own ->
  (* without a mutex *)
  (mx = None ->
     lstep s (LLock a) w = Some (s, RPerm) /\ lstep s (LTryLock a) w = Some (s, RPerm) /\ lstep s (LUnlock a) w = Some (s, RPerm)) /\
  (* already owning *)
  (own = true -> lstep s (LLock a) w = Some (s, RDeadlk) /\ lstep s (LTryLock a) w = Some (s, RDeadlk)) /\
  (* not owning *)
  (own = false -> lstep s (LUnlock a) w = Some (s, RPerm)) /\
  (* and otherwise there is no such error *)
  (mx <> None -> own = false -> forall op s' r, op = LLock a \/ op = LTryLock a -> lstep s op w = Some (s', r) ->
     (r = RMx /\ s' = s) \/
     ((r = RUnit \/ exists b, r = RBool b) /\ is_lock s' a k mx (match r with RBool b => b | _ => true end))) /\
  (own = true -> forall s' r, lstep s (LUnlock a) w = Some (s', r) -> r = RUnit /\ is_lock s' a k mx false).
Proof.
  intros Hf H Hl.
  assert (Hm : own = true -> mx <> None) by (intros ->; exact (@owns_mutex ops s a k mx Hf H Hl)).
  pose proof Hl as Hg. unfold is_lock in Hg.
  split; [|split; [|split; [|split]]].
  - intros ->. cbn [lstep]. rewrite Hg. repeat split; reflexivity.
  - intros ->. destruct mx as [m|]; [|exfalso; now apply Hm]. cbn [lstep]. rewrite Hg. split; reflexivity.
  - intros ->. cbn [lstep]. rewrite Hg. destruct mx as [m|]; reflexivity.
  - intros Hmx -> op s' r Hop Hs. destruct mx as [m|]; [|congruence].
    destruct Hop as [-> | ->]; cbn [lstep] in Hs; rewrite Hg in Hs; cbn in Hs; destruct w; injection Hs as <- <-;
      try (left; now split); right; (split; [eauto|]); exact (get_put_same s a _ Hg).
  - intros -> s' r Hs. destruct mx as [m|]; [|exfalso; now apply Hm].
    assert (Hr : r <> RUB) by exact (@no_ub ops s (LUnlock a) w s' r Hf H I Hs).
    cbn [lstep] in Hs. rewrite Hg in Hs. cbn in Hs.
    destruct (mx_unlock m k (s_hold s)) as [h|]; injection Hs as <- <-; [|congruence].
    split; [reflexivity|]. exact (get_put_same s a _ Hg).
Qed.
Print Assumptions lock_misuse.

(** C34: an operation of a lock object that throws (a lock_error, or an exception of the mutex) changes nothing. *)
Theorem lock_strong_guarantee s op w s' r :
  lstep s op w = Some (s', r) -> throws r = true -> s' = s.
Proof. exact (@strong_guarantee s op w s' r). Qed.
Print Assumptions lock_strong_guarantee.

Example lock_misuse_ok : exists s, lrun l_init [(LCtor KG 3, AOk); (LMove 0, AOk); (LDefer KS 3, AOk)] = Some s /\
  is_lock s 0 KG None false /\ is_lock s 1 KG (Some 3) true /\ is_lock s 2 KS (Some 3) false /\
  lstep s (LLock 0) AOk = Some (s, RPerm) /\ lstep s (LTryLock 1) AOk = Some (s, RDeadlk) /\ lstep s (LUnlock 2) AOk = Some (s, RPerm).
Proof. eexists. split; [vm_compute; reflexivity|]. repeat split; vm_compute; reflexivity. Qed.

(** C39, what holds: if the lock owned its mutex, or had none, a reverse_lock scope leaves the lock object as it was
    (unless re-locking throws, which ends the program); in the scope the lock object has no mutex.
    [s1] is the state after the construction of the reverse_lock [r], [s2] the state at the end of the scope. *)
Theorem reverse_lock_restores_partial (ops : list (lop * ans)) s a k mx own w s1 res :
  Forall rev_unique ops -> lrun l_init ops = Some s -> k = KU ->
  is_lock s a k mx own -> own = true \/ mx = None ->
  lstep s (LRev k a) w = Some (s1, res) ->
  res = RUnit /\ is_lock s1 a k None false /\
  exists r, get s1 r = Some (ORev a mx) /\
    (forall m, own = true -> mx = Some m -> s_hold s1 m k + 1 = s_hold s m k) /\
    forall s2 w' s3 res', is_lock s2 a k None false -> get s2 r = Some (ORev a mx) ->
      lstep s2 (LDestroy r) w' = Some (s3, res') -> res' <> RTerm ->
      res' = RUnit /\ is_lock s3 a k mx own.
Proof.
  intros Hf H -> Hl Ho Hs.
  assert (Hr : res <> RUB) by exact (@no_ub ops s (LRev KU a) w s1 res Hf H eq_refl Hs).
  destruct (@rev_ctor s a KU mx own w s1 res Hl Hs Hr) as (Hres & H1 & H2).
  split; [exact Hres|]. split; [exact H1|]. exists (length (s_objs s)). split; [exact H2|]. split.
  - intros m -> ->. unfold is_lock in Hl. cbn [lstep] in Hs. rewrite Hl in Hs. cbn in Hs.
    unfold mx_unlock in Hs. destruct (s_hold s m KU =? 0) eqn:E; injection Hs as <- <-; [congruence|].
    apply Nat.eqb_neq in E. cbn. pose proof (decr_eq (s_hold s) m KU m KU E). rewrite same_refl in *. simpl in *. lia.
  - intros s2 w' s3 res' Hl2 Hg2 Hs2 Hn. destruct mx as [m|].
    + destruct Ho as [-> | Ho]; [|discriminate]. exact (@rev_dtor s2 a _ KU m w' s3 res' Hl2 Hg2 Hs2 Hn).
    + assert (own = false) as ->.
      { destruct own; auto. exfalso. exact (@owns_mutex ops s a KU None Hf H Hl eq_refl). }
      exact (@rev_dtor_none s2 a _ KU w' s3 res' Hl2 Hg2 Hs2).
Qed.
Print Assumptions reverse_lock_restores_partial.

Example reverse_lock_ok : exists s s1 s3, lrun l_init [(LCtor KU 3, AOk)] = Some s /\ is_lock s 0 KU (Some 3) true /\
  lstep s (LRev KU 0) AOk = Some (s1, RUnit) /\ lstep s1 (LDestroy 1) AOk = Some (s3, RUnit) /\ is_lock s3 0 KU (Some 3) true.
Proof. do 3 eexists. repeat (split; [vm_compute; reflexivity|]). vm_compute; reflexivity. Qed.

(** C39 fails in general: a lock that has a mutex but does not own it comes out of the scope owning it. *)
Theorem reverse_lock_restores_refuted :
  ~ (forall (ops : list (lop * ans)) s a k mx own w s1 r w' s3,
       Forall rev_unique ops -> lrun l_init ops = Some s -> is_lock s a k mx own -> k = KU ->
       lstep s (LRev k a) w = Some (s1, RUnit) -> get s1 r = Some (ORev a mx) ->
       lstep s1 (LDestroy r) w' = Some (s3, RUnit) -> is_lock s3 a k mx own).
Proof.
  intros H.
  assert (HF : Forall rev_unique [(LDefer KU 0, AOk)]) by repeat constructor.
  specialize (H [(LDefer KU 0, AOk)] _ 0 KU (Some 0) false AOk _ 1 AOk _ HF eq_refl eq_refl eq_refl eq_refl eq_refl eq_refl).
  vm_compute in H. discriminate.
Qed.
Print Assumptions reverse_lock_restores_refuted.

(** C39, finding: a reverse_lock over a shared_lock re-locks the mutex exclusively and lets the shared_lock adopt it:
    the mutex stays locked exclusively for ever, and the destructor of the shared_lock unlocks what is not locked. *)
Theorem reverse_lock_shared_refuted :
  exists s s' ops, ops = [(LCtor KS 0, AOk); (LRev KS 0, AOk); (LDestroy 1, AOk)] /\ lrun l_init ops = Some s /\
    is_lock s 0 KS (Some 0) true /\ s_hold s 0 KS = 0 /\ s_hold s 0 KU = 1 /\
    lstep s (LDestroy 0) AOk = Some (s', RUB).
Proof. do 3 eexists. split; [reflexivity|]. repeat (split; [vm_compute; reflexivity|]). vm_compute. reflexivity. Qed.
Print Assumptions reverse_lock_shared_refuted.

(** C39: a nested_strict_lock takes the lock's mutex over, locking it if needed; at the end of its scope the lock has its
    mutex back and owns it, and the mutex is not touched. *)
Theorem nested_strict_lock_restores s a k mx own w s1 res :
  is_lock s a k mx own -> lstep s (LNest a) w = Some (s1, res) ->
  (throws res = true /\ s1 = s) \/
  (res = RUnit /\ is_lock s1 a k None false /\
   exists r, get s1 r = Some (ONest a (MkLk k mx true)) /\
     forall s2 w' s3 res', is_lock s2 a k None false -> get s2 r = Some (ONest a (MkLk k mx true)) ->
       lstep s2 (LDestroy r) w' = Some (s3, res') ->
       res' = RUnit /\ is_lock s3 a k mx true /\ s_hold s3 = s_hold s2).
Proof.
  intros Hl Hs. destruct (throws res) eqn:Et.
  - left. split; [reflexivity|]. exact (@strong_guarantee _ _ _ _ _ Hs Et).
  - right. destruct (@nest_ctor s a k mx own w s1 res Hl Hs Et) as (Hr & H1 & _ & H2).
    split; [exact Hr|]. split; [exact H1|]. exists (length (s_objs s)). split; [exact H2|].
    intros s2 w' s3 res' Hl2 Hg2 Hs2. exact (@nest_dtor s2 a _ (MkLk k mx true) w' s3 res' Hl2 Hg2 Hs2).
Qed.
Print Assumptions nested_strict_lock_restores.

Example nested_strict_lock_ok : exists s s1 s3, lrun l_init [(LDefer KG 3, AOk)] = Some s /\ is_lock s 0 KG (Some 3) false /\
  lstep s (LNest 0) AOk = Some (s1, RUnit) /\ lstep s1 (LDestroy 1) AOk = Some (s3, RUnit) /\ is_lock s3 0 KG (Some 3) true.
Proof. do 3 eexists. repeat (split; [vm_compute; reflexivity|]). vm_compute; reflexivity. Qed.
