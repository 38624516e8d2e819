(** * Threads the library has not started: the theorems (C135, C136) *)
From Verif Require Import TE_Model TE_Spec TE_Proofs.

(** C135.  While a thread that the library has not started ends, at every point where a function is about to be called (and when
    everything is over): no execution is undefined, and each non-null value given to reset() of an object with a cleanup function
    has been passed to that function, or been released, exactly as often as it was installed, except that it may be still held or waiting for its cleanup.
    Only reset() while the thread runs is restricted as in C43; cleanup functions that are run by the end of the thread may do anything,
    also with their own object. *)
Theorem external_cleanup_partial : forall hasf limit ops r, ending hasf disciplined limit ops r ->
  exists c, r = Some c /\
    forall k v, hasf k = true -> v <> 0 ->
      installed k v (c_st c) = cleaned k v (c_st c) + released k v (c_st c) + held k v (c_st c) + waiting k v c.
Proof.
  intros hasf limit ops r H. destruct (invx_ending H) as (c & E & _ & _ & Hb). exists c. split; [exact E|]. intros k v Hk Hv. exact (Hb k Hk v Hv).
Qed.
Print Assumptions external_cleanup_partial.

(** C135.  When the thread has ended before the system gave up repeating, nothing is left. *)
Theorem external_cleanup_once_partial : forall hasf limit ops c, ending hasf disciplined limit ops (Some c) -> ended limit c ->
  c_round c < limit ->
  (forall k, get k (c_st c) = 0) /\
  (forall k v, hasf k = true -> v <> 0 -> installed k v (c_st c) = cleaned k v (c_st c) + released k v (c_st c)) /\
  (forall g, registered g (c_st c) = ran g (c_st c)).
Proof.
  intros hasf limit ops c H (H1 & H2 & [[H3 H4]|H3]) Hl; [|lia]. pose proof (cbx H eq_refl) as Hcb.
  destruct (invx_ending H) as (c' & E & _ & _ & Hb). injection E as <-.
  assert (Hg : forall k, get k (c_st c) = 0) by (intros k; unfold get, find_node; now rewrite H3).
  split; [exact Hg|]. split.
  - intros k v Hk Hv. specialize (Hb k Hk v Hv). unfold held in Hb. rewrite Hg, H1 in Hb. destruct v; [congruence|]. simpl in Hb. unfold wcount in Hb. simpl in Hb. lia.
  - intros g. specialize (Hcb g). rewrite H2, H4 in Hcb. simpl in Hcb. lia.
Qed.
Print Assumptions external_cleanup_once_partial.

(** C135.  Exit functions, whatever the functions do: each registration has been run, or is still due. *)
Theorem external_exit_functions : forall hasf allowed limit ops c, ending hasf allowed limit ops (Some c) ->
  forall g, registered g (c_st c) = ran g (c_st c) + count_occ Nat.eq_dec (cbs (c_st c)) g + count_occ Nat.eq_dec (c_cbs c) g.
Proof. intros hasf allowed limit ops c H. exact (cbx H eq_refl). Qed.
Print Assumptions external_exit_functions.

(** C135 in full is false.  However often the system repeats, there is a thread, all of whose functions return, that ends with a
    value that is neither cleaned up nor released: the cleanup function of a value installs another one, as in a thread of the library it may. *)
Theorem external_cleanup_once_refuted : forall limit, 1 <= limit -> exists hasf ops c,
  ending hasf disciplined limit ops (Some c) /\ ended limit c /\
  exists k v, hasf k = true /\ v <> 0 /\
    installed k v (c_st c) = 1 /\ cleaned k v (c_st c) = 0 /\ released k v (c_st c) = 0.
Proof.
  intros limit Hl. destruct limit as [|l]; [lia|]. clear Hl.
  assert (H0 : ending (fun _ => true) disciplined (S l) [OReset 1 (S (S l))]
                 (Some (down 1 1 (l + 1) [EInstalled 1 (S l); ECleaned 1 (S (S l)); EInstalled 1 (S (S l))]))).
  { assert (H : ending (fun _ => true) disciplined (S l) [OReset 1 (S (S l))] (Some (next_round 0 (MkSt [MkN 1 0 true (S (S l))] [] 1 [EInstalled 1 (S (S l))])))).
    { apply en_start. eapply xs_cons; [|apply xs_nil].
      refine (@x_new (fun _ => true) disciplined [] _ (OReset 1 (S (S l))) 1 true (S (S l)) true eq_refl _ _); reflexivity. }
    apply (@en_clean (fun _ => true) disciplined (S l) _ 1 [MkN 1 0 true (S (S l))] _ (MkN 1 0 true (S (S l))) [OReset 1 (S l)]
             (MkSt [MkN 1 1 true (S l)] [] 2 [EInstalled 1 (S l); ECleaned 1 (S (S l)); EInstalled 1 (S (S l))])) in H; [|left; reflexivity|reflexivity|].
    - rewrite Nat.add_1_r. exact H.
    - eapply xs_cons; [|apply xs_nil]. refine (@x_new (fun _ => true) disciplined [] _ (OReset 1 (S l)) 1 true (S l) true eq_refl _ _); reflexivity. }
  destruct (@down_steps (S l) [OReset 1 (S (S l))] l 1 1 0 _ H0 (le_n _)) as (h & H & Hi & Hc & Hr).
  - intros x Hx. rewrite !count_cons. cbn [is_cleaned is_released is_installed]. destruct x as [|[|x]]; [|simpl|lia].
    + simpl. auto.
    + split; [reflexivity|]. split; [reflexivity|]. intros Hlt. destruct l; [simpl in Hlt; lia|reflexivity].
  - intros ->. reflexivity.
  - exists (fun _ => true), [OReset 1 (S (S l))]. eexists. split; [exact H|]. split; [split; [reflexivity|split; [reflexivity|right; simpl; lia]]|].
    exists 1, 1. repeat split; auto.
Qed.
Print Assumptions external_cleanup_once_refuted.

(** Also false: while such a thread ends, get() of an object whose value has been neither cleaned up nor released returns null: a
    cleanup function does not find the values of the other objects. *)
Theorem external_get_refuted : exists hasf limit ops c k v,
  ending hasf disciplined limit ops (Some c) /\ hasf k = true /\ v <> 0 /\
  installed k v (c_st c) = 1 /\ cleaned k v (c_st c) = 0 /\ released k v (c_st c) = 0 /\ get k (c_st c) = 0.
Proof.
  exists (fun _ => true), 4, [OReset 1 5; OReset 2 7]. eexists. exists 1, 5. split.
  - apply en_start. eapply xs_cons; [eapply x_new; reflexivity|]. eapply xs_cons; [eapply x_new; reflexivity|]. apply xs_nil.
  - split; [reflexivity|]. split; [discriminate|]. repeat split; reflexivity.
Qed.
Print Assumptions external_get_refuted.

(** C136.  In a thread of the library what is asked for its end with notify_all_at_thread_exit and set_value_at_thread_exit has been done, once each,
    when its data are gone: the mutexes are unlocked, the condition variables notified, the futures ready. *)
Theorem exit_requests_partial : forall ops, all_done (xthread true ops).
Proof. exact xthread_lib. Qed.
Print Assumptions exit_requests_partial.

(** C136 in full is false.  In a thread the library has not started nobody is ever notified and no such future becomes ready
    (so whoever waits waits for ever), and if it has used a thread_specific_ptr or at_thread_exit before, the mutex stays locked for ever. *)
Theorem exit_requests_refuted :
  (forall ops x, xcount (notified x) (xthread false ops) = 0 /\ xcount (made_ready x) (xthread false ops) = 0) /\
  (exists ops, ~ all_done (xthread false ops)) /\
  (exists ops m, xcount (asked_with m) (xthread false ops) = 1 /\ xcount (unlocked m) (xthread false ops) = 0).
Proof.
  split; [intros ops; exact (proj2 (xthread_ext ops))|]. split.
  - exists [XNotify 1 2]. intros (_ & H & _). specialize (H 1). vm_compute in H. discriminate H.
  - exists [XUse; XNotify 1 2], 2. split; reflexivity.
Qed.
Print Assumptions exit_requests_refuted.

(** What remains true of such a thread: no mutex is unlocked that was not given away. *)
Theorem exit_requests_external_partial : forall ops m, xcount (unlocked m) (xthread false ops) <= xcount (asked_with m) (xthread false ops).
Proof. intros ops. exact (proj1 (xthread_ext ops)). Qed.
Print Assumptions exit_requests_external_partial.

(** ** The hypotheses are met *)
(** reset(5), at_thread_exit(3); at the end function 3 installs 7 in another object; the cleanup of 5 resets its own object to 6: three
    values and one function, each treated once, within four rounds. *)
Example external_thread : exists c, ending (fun _ => true) disciplined 4 [OReset 1 5; AtExit 3] (Some c) /\ ended 4 c /\ c_round c < 4 /\
  map (fun kv => (installed (fst kv) (snd kv) (c_st c), cleaned (fst kv) (snd kv) (c_st c))) [(1, 5); (1, 6); (2, 7)] = [(1, 1); (1, 1); (1, 1)] /\
  (registered 3 (c_st c), ran 3 (c_st c)) = (1, 1).
Proof.
  eexists. split.
  - eapply en_clean with (n := MkN 2 1 true 7) (old := [MkN 2 1 true 7]) (fops := []); [|left; reflexivity|reflexivity|apply xs_nil].
    apply en_clean with (r := 2) (old := [MkN 1 2 true 6; MkN 2 1 true 7]) (n := MkN 1 2 true 6) (fops := [])
      (s := MkSt [] [] 3 [EInstalled 1 6; ECleaned 1 5; EInstalled 2 7; ERan 3; ERegistered 3; EInstalled 1 5]); [|left; reflexivity|reflexivity|apply xs_nil].
    apply (@en_round (fun _ => true) disciplined 4 _ 1 (MkSt [MkN 1 2 true 6; MkN 2 1 true 7] [] 3 [EInstalled 1 6; ECleaned 1 5; EInstalled 2 7; ERan 3; ERegistered 3; EInstalled 1 5])); [|intros [E _]; discriminate E|lia].
    apply en_clean with (old := [MkN 1 0 true 5]) (n := MkN 1 0 true 5) (fops := [OReset 1 6])
      (s := MkSt [MkN 2 1 true 7] [] 2 [EInstalled 2 7; ERan 3; ERegistered 3; EInstalled 1 5]); [|left; reflexivity|reflexivity|].
    + apply en_exit with (g := 3) (fops := [OReset 2 7]) (s := MkSt [] [] 1 [ERegistered 3; EInstalled 1 5]).
      * apply (@en_start (fun _ => true) disciplined 4 _ (MkSt [MkN 1 0 true 5] [3] 1 [ERegistered 3; EInstalled 1 5])).
        eapply xs_cons; [eapply x_new; reflexivity|]. eapply xs_cons; [eapply x_atexit; reflexivity|apply xs_nil].
      * eapply xs_cons; [eapply x_new; reflexivity|apply xs_nil].
    + eapply xs_cons; [eapply x_new; reflexivity|apply xs_nil].
  - vm_compute. repeat split; auto.
Qed.
(** two notifications and a promise *)
Example exit_requests_case : xthread true [XNotify 1 2; XPromise 3; XNotify 1 4] =
  [VAsked 1 2; VPromised 3; VAsked 1 4; VUnlocked 2; VNotified 1; VUnlocked 4; VNotified 1; VReady 3].
Proof. reflexivity. Qed.
