(** * Model of the end of a thread that the library has not started

    Sources: src/pthread/thread.cpp 88-122 (tls_destructor) as the destructor of a pthread key (145-148), 207-252
    (externally_launched_thread, make_external_thread_data, get_or_make_current_thread_data), 790-809
    (notify_all_at_thread_exit, make_ready_at_thread_exit) and 49-63 (~thread_data_base);
    include/boost/thread/pthread/thread_data.hpp 160-183.  What the thread does before it ends is that of TS_Model: the operations on
    thread_specific_ptr and at_thread_exit are the same, only that the data are made by the first of them.

    POSIX (pthread_key_create): when a thread ends, the key's value is set to NULL first and then tls_destructor is called with the
    old one.  So during that call get_current_thread_data() returns NULL, and the first operation of a cleanup or exit function that
    stores something makes new data.  When the call has returned and there are such new data, this is repeated, at most
    [limit] times in all (PTHREAD_DESTRUCTOR_ITERATIONS); after that the data are left as they are.
    (For a thread of the library thread_proxy calls tls_destructor itself, with the value still set: TS_Model.)

    Simplifications: those of TS_Model; the thread ends by returning or by pthread_exit, and no cleanup function calls pthread_exit;
    the main thread, for which nothing of this happens when main() returns, does end by pthread_exit. *)
From Verif Require Export TS_Model.
Set Implicit Arguments.

(** [c_round]: how many times tls_destructor has been called; [c_old], [c_cbs]: what is left of the data it was called with;
    [c_st]: the data that operations work on now, and the log. *)
Record conf := MkC { c_round : nat; c_old : list node; c_cbs : list nat; c_st : st }.

(** the value of the key is set to NULL, tls_destructor is called with the old one *)
Definition next_round (r : nat) (s : st) : conf := MkC (S r) (tss s) (cbs s) (MkSt [] [] (fresh s) (log s)).
Definition without (n : node) (l : list node) : list node := filter (fun m => negb (n_id m =? n_id n)) l.

Section Ext.
  Variable hasf : nat -> bool.
  Variable allowed : list nat -> op -> bool.
  Variable limit : nat.

  (** The situations a thread that has executed [ops] gets into while it ends, at the points where tls_destructor
      is about to call the next function; [None]: undefined behaviour. *)
  Inductive ending (ops : list op) : option conf -> Prop :=
  | en_start s : execs hasf allowed [] st0 ops (Some s) -> ending ops (Some (next_round 0 s))
  | en_start_ub : execs hasf allowed [] st0 ops None -> ending ops None
  | en_exit r old g rest s fops s1 :                       (* 97-108: an exit function is run *)
      ending ops (Some (MkC r old (g :: rest) s)) -> execs hasf allowed [] (add_ev (ERan g) s) fops (Some s1) ->
      ending ops (Some (MkC r old rest s1))
  | en_exit_ub r old g rest s fops :
      ending ops (Some (MkC r old (g :: rest) s)) -> execs hasf allowed [] (add_ev (ERan g) s) fops None -> ending ops None
  | en_plain r old s n :                                   (* 109-119: nothing to clean up *)
      ending ops (Some (MkC r old [] s)) -> In n old -> n_func n && negb (n_val n =? 0) = false ->
      ending ops (Some (MkC r (without n old) [] (add_ev_if (negb (n_val n =? 0)) (EDropped (n_key n) (n_val n)) s)))
  | en_clean r old s n fops s1 :                           (* 109-119: a cleanup function is run *)
      ending ops (Some (MkC r old [] s)) -> In n old -> n_func n && negb (n_val n =? 0) = true ->
      execs hasf allowed [] (add_ev (ECleaned (n_key n) (n_val n)) s) fops (Some s1) ->
      ending ops (Some (MkC r (without n old) [] s1))
  | en_clean_ub r old s n fops :
      ending ops (Some (MkC r old [] s)) -> In n old -> n_func n && negb (n_val n =? 0) = true ->
      execs hasf allowed [] (add_ev (ECleaned (n_key n) (n_val n)) s) fops None -> ending ops None
  | en_round r s :                                         (* there are new data: once more *)
      ending ops (Some (MkC r [] [] s)) -> ~ (tss s = [] /\ cbs s = []) -> r < limit -> ending ops (Some (next_round r s)).

  (** The thread has ended. *)
  Definition ended (c : conf) : Prop :=
    c_old c = [] /\ c_cbs c = [] /\ ((tss (c_st c) = [] /\ cbs (c_st c) = []) \/ limit <= c_round c).
End Ext.

(** ** What is asked for the end of a thread by notify_all_at_thread_exit and set_value_at_thread_exit *)

Inductive xevent :=
| VAsked (c m : nat)       (* notify_all_at_thread_exit(c, lock of m) *)
| VUnlocked (m : nat)      (* the mutex m, whose lock was given away, is unlocked *)
| VNotified (c : nat)      (* c is notified *)
| VPromised (p : nat)      (* set_value_at_thread_exit of promise p *)
| VReady (p : nat).        (* the future of p becomes ready *)

(** [x_lib]: the thread was started by the library; [x_data]: it has a thread_data_base; its [notify] and [async_states_];
    newest event last. *)
Record xst := MkX { x_lib : bool; x_data : bool; x_notify : list (nat * nat); x_states : list nat; x_log : list xevent }.
(** a thread of the library has its data from the beginning (thread_proxy 173) *)
Definition xst0 (lib : bool) : xst := MkX lib lib [] [] [].

Inductive xop :=
| XUse                     (* anything that makes the data: reset() of a thread_specific_ptr, at_thread_exit (235-252) *)
| XNotify (c m : nat)
| XPromise (p : nat).

Definition xexec (s : xst) (o : xop) : xst :=
  match o with
  | XUse => MkX (x_lib s) true (x_notify s) (x_states s) (x_log s)
  | XNotify c m =>         (* 790-797; the lock is a parameter by value: its destructor unlocks unless release() was called *)
      if x_data s
      then MkX (x_lib s) true
             (if x_lib s then x_notify s ++ [(c, m)] else x_notify s)   (* thread_data.hpp 170-174; thread.cpp 227-228: does nothing *)
             (x_states s) (x_log s ++ [VAsked c m])
      else MkX (x_lib s) false (x_notify s) (x_states s) (x_log s ++ [VAsked c m; VUnlocked m])
  | XPromise p =>          (* 802-809, thread_data.hpp 176-179 *)
      if x_data s
      then MkX (x_lib s) true (x_notify s) (x_states s ++ [p]) (x_log s ++ [VPromised p])
      else MkX (x_lib s) false (x_notify s) (x_states s) (x_log s ++ [VPromised p])
  end.
Definition xexecs (s : xst) (ops : list xop) : xst := fold_left xexec ops s.

(** The data are destroyed: ~externally_launched_thread (217-225) clears both lists, then ~thread_data_base (49-63) works them off.
    Simplification: for a thread of the library this is when its last boost::thread object goes or the thread ends, whichever is later (C71). *)
Definition xdestroy (s : xst) : xst :=
  let ns := if x_lib s then x_notify s else [] in
  let ps := if x_lib s then x_states s else [] in
  MkX (x_lib s) false [] [] (x_log s ++ flat_map (fun cm => [VUnlocked (snd cm); VNotified (fst cm)]) ns ++ map VReady ps).
Definition xthread (lib : bool) (ops : list xop) : list xevent := x_log (xdestroy (xexecs (xst0 lib) ops)).
