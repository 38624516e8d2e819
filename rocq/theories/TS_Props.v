(** * thread_specific_ptr and at_thread_exit: the theorems (C43, C44) *)
From Verif Require Import TS_Model TS_Spec TS_Proofs.

(** C43.  While the thread runs: if the cleanup functions leave alone the object whose value they are cleaning up (they may do
    anything else, to any depth), no execution is undefined, and each non-null value given to reset() of an object with a cleanup function
    has been passed to that function, or been released, exactly as often as it was installed, except that the current value is still held. *)
Theorem tss_cleanup_running_partial : forall hasf ops r, execs hasf disciplined [] st0 ops r ->
  exists s, r = Some s /\
    forall k v, hasf k = true -> v <> 0 -> installed k v s = cleaned k v s + released k v s + held k v s.
Proof.
  intros hasf ops r H. destruct (inv_execs H eq_refl (inv0 hasf)) as (s & E & _ & Hb). exists s. split; [exact E|]. intros k v Hk Hv. rewrite (Hb k Hk v Hv). apply Nat.add_0_r.
Qed.
Print Assumptions tss_cleanup_running_partial.

(** C43.  When the thread has ended nothing is held any more: every value installed in its lifetime, also by cleanup
    functions and exit functions during its end, has been cleaned up or released exactly once. *)
Theorem tss_cleanup_once_partial : forall hasf ops r, thread hasf disciplined ops r ->
  exists s, r = Some s /\ (forall k, get k s = 0) /\
    forall k v, hasf k = true -> v <> 0 -> installed k v s = cleaned k v s + released k v s.
Proof.
  intros hasf ops r H. destruct (inv_thread H) as (s & E & _ & Hb). exists s. split; [exact E|]. subst r.
  destruct (cb_thread H) as (_ & Ht & _).
  assert (Hg : forall k, get k s = 0) by (intros k; unfold get, find_node; now rewrite Ht).
  split; [exact Hg|]. intros k v Hk Hv. specialize (Hb k Hk v Hv). unfold held in Hb. rewrite Hg in Hb. destruct v; [congruence|]. simpl in Hb. lia.
Qed.
Print Assumptions tss_cleanup_once_partial.

(** C43 in full is false: a cleanup function that calls reset() on its own object makes the value be cleaned up twice, ... *)
Theorem tss_cleanup_once_refuted :
  exists hasf ops s, thread hasf anything ops (Some s) /\ exists k v, hasf k = true /\ v <> 0 /\ installed k v s = 1 /\ cleaned k v s = 2.
Proof.
  exists (fun _ => true), [OReset 1 5]. eexists. split.
  - eapply th_run.
    + eapply xs_cons; [eapply x_new; reflexivity|apply xs_nil].
    + eapply ex_loop.
      * intros [H _]; discriminate H.
      * apply cb_done; reflexivity.
      * eapply tl_clean with (ops := [OReset 1 0]); [left; reflexivity|reflexivity| | |].
        -- eapply xs_cons; [|apply xs_nil].
           eapply x_cleanup' with (ops := []); [reflexivity|reflexivity|reflexivity|reflexivity|apply xs_nil|reflexivity].
        -- reflexivity.
        -- apply tl_done; reflexivity.
      * apply ex_done; reflexivity.
  - exists 1, 5. vm_compute. repeat split; auto; discriminate.
Qed.
Print Assumptions tss_cleanup_once_refuted.

(** ... and one that calls release() on it leaves the library with an iterator to an erased node: undefined behaviour. *)
Theorem tss_no_undefined_behaviour_refuted : exists hasf ops, thread hasf anything ops None.
Proof.
  exists (fun _ => true), [OReset 1 5]. eapply th_run.
  - eapply xs_cons; [eapply x_new; reflexivity|apply xs_nil].
  - eapply ex_ub2; [intros [H _]; discriminate H|apply cb_done; reflexivity|].
    eapply tl_erased with (ops := [ORelease 1]); [left; reflexivity|reflexivity| |].
    + eapply xs_cons; [eapply x_nocleanup'; reflexivity|apply xs_nil].
    + reflexivity.
Qed.
Print Assumptions tss_no_undefined_behaviour_refuted.

(** C44.  Whatever exit functions and cleanup functions do: while the thread runs each registration is either still due or has been run, ... *)
Theorem exit_functions_running : forall hasf allowed ops s, execs hasf allowed [] st0 ops (Some s) ->
  forall g, registered g s = ran g s + count_occ Nat.eq_dec (cbs s) g.
Proof. intros hasf allowed ops s H. exact (proj2 (cb_exec hasf allowed) _ _ _ _ H s eq_refl (fun g => eq_refl)). Qed.
Print Assumptions exit_functions_running.

(** ... and when the thread has ended each function registered in its lifetime, also by exit functions and cleanup functions, has run
    exactly as often as it was registered. *)
Theorem exit_functions_once : forall hasf allowed ops s, thread hasf allowed ops (Some s) -> forall g, ran g s = registered g s.
Proof. intros hasf allowed ops s H g. destruct (cb_thread H) as (Hi & _ & Hc). specialize (Hi g). rewrite Hc in Hi. simpl in Hi. lia. Qed.
Print Assumptions exit_functions_once.

(** Before the thread ends no exit function has run. *)
Theorem exit_functions_not_early : forall hasf allowed ops r, execs hasf allowed [] st0 ops r -> forall s g, r = Some s -> ran g s = 0.
Proof. intros hasf allowed ops r H s g E. exact (no_run g H E). Qed.
Print Assumptions exit_functions_not_early.

(** ** The hypotheses are met *)
(** reset(5); reset(6), the cleanup of 5 resetting another object; at_thread_exit(3), which registers 4 and resets to 8, whose cleanup
    resets the other object again: every value is cleaned up once, every function run once. *)
Example tss_thread : exists s, thread (fun _ => true) disciplined [OReset 1 5; OReset 1 6; AtExit 3] (Some s) /\ map (fun kv => (installed (fst kv) (snd kv) s, cleaned (fst kv) (snd kv) s)) [(1, 5); (1, 6); (1, 8); (2, 7); (2, 9)] =
    [(1, 1); (1, 1); (1, 1); (1, 1); (1, 1)] /\ map (fun g => (registered g s, ran g s)) [3; 4] = [(1, 1); (1, 1)].
Proof.
  eexists. split.
  - eapply th_run.
    + eapply xs_cons; [eapply x_new; reflexivity|].
      eapply xs_cons.
      { eapply x_cleanup' with (ops := [OReset 2 7]); [reflexivity|reflexivity|reflexivity|reflexivity| |].
        - eapply xs_cons; [eapply x_new; reflexivity|apply xs_nil].
        - reflexivity. }
      eapply xs_cons; [eapply x_atexit; reflexivity|apply xs_nil].
    + eapply ex_loop.
      * intros [H _]; discriminate H.
      * eapply cb_run with (ops := [AtExit 4; OReset 1 8]); [reflexivity| |].
        -- eapply xs_cons; [eapply x_atexit; reflexivity|]. eapply xs_cons; [|apply xs_nil].
           eapply x_cleanup' with (ops := []); [reflexivity|reflexivity|reflexivity|reflexivity|apply xs_nil|reflexivity].
        -- eapply cb_run with (ops := []); [reflexivity|apply xs_nil|]. apply cb_done; reflexivity.
      * eapply tl_clean with (n := MkN 1 0 true 8) (ops := [OReset 2 9]); [vm_compute; auto|reflexivity| | |].
        -- eapply xs_cons; [|apply xs_nil].
           eapply x_cleanup' with (ops := []); [reflexivity|reflexivity|reflexivity|reflexivity|apply xs_nil|reflexivity].
        -- reflexivity.
        -- eapply tl_clean with (ops := []); [left; reflexivity|reflexivity|apply xs_nil|reflexivity|]. apply tl_done; reflexivity.
      * apply ex_done; reflexivity.
  - vm_compute. split; reflexivity.
Qed.
