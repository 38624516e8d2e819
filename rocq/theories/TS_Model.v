(** * Model of thread_specific_ptr and at_thread_exit, for one thread

    Sources: include/boost/thread/tss.hpp 30-105 (thread_specific_ptr), src/pthread/thread.cpp 711-787
    (add_thread_exit_function, find_tss_data, get_tss_data, add_new_tss_node, erase_tss_node, set_tss_data) and 88-122
    (tls_destructor, run when a thread ends).  The data are per thread and nobody else touches them, so one thread is modelled; several
    threads are several instances.

    A key is a thread_specific_ptr object; a value is a pointer, 0 the null pointer.  Cleanup functions and exit functions are
    arbitrary: during such a call any finite sequence of the operations below may be executed.  The executions are given by
    big-step rules, so those that never end (a cleanup function that installs a new value for ever) have no result.
    Simplifications: std::map::begin() may be any node (the order of the addresses is not known); the destructor of a
    thread_specific_ptr only concerns this thread's value (as in the code); allocation does not fail. *)

From Coq Require Export List Arith Lia Bool.
Export ListNotations.
Set Implicit Arguments.

(** What can be observed, newest first. *)
Inductive event :=
| EInstalled (k v : nat)      (* reset(v) installs v *)
| ECleaned (k v : nat)        (* the cleanup function of k is called with v *)
| EReleased (k v : nat)       (* release() returns v *)
| EDropped (k v : nat)        (* v is given up without cleanup: k has no cleanup function *)
| ERegistered (g : nat)       (* at_thread_exit(g) *)
| ERan (g : nat).             (* the exit function g is called *)

(** tss_data_node (pthread/thread_data.hpp 97-109) in the map; [n_id]: its identity, for pointers and iterators to it. *)
Record node := MkN { n_key : nat; n_id : nat; n_func : bool; n_val : nat }.
Record st := MkSt { tss : list node; cbs : list nat; fresh : nat; log : list event }.
Definition st0 : st := MkSt [] [] 0 [].

Inductive op := OReset (k v : nat) | ORelease (k : nat) | ODestroy (k : nat) | AtExit (g : nat).

Definition add_ev (e : event) (s : st) : st := MkSt (tss s) (cbs s) (fresh s) (e :: log s).
Definition add_ev_if (b : bool) (e : event) (s : st) : st := if b then add_ev e s else s.
(** find_tss_data, thread.cpp 719-732 *)
Definition find_node (k : nat) (s : st) : option node := find (fun n => n_key n =? k) (tss s).
(** get_tss_data 734-741 *)
Definition get (k : nat) (s : st) : nat := match find_node k s with Some n => n_val n | None => 0 end.
(** erase_tss_node 752-759 *)
Definition erase_key (k : nat) (s : st) : st := MkSt (filter (fun n => negb (n_key n =? k)) (tss s)) (cbs s) (fresh s) (log s).
(** add_new_tss_node 743-750 *)
Definition add_node (k : nat) (f : bool) (v : nat) (s : st) : st :=
  MkSt (MkN k (fresh s) f v :: tss s) (cbs s) (S (fresh s)) (log s).
(** through a pointer to a node *)
Definition has_id (i : nat) (s : st) : bool := existsb (fun n => n_id n =? i) (tss s).
Definition write_id (i : nat) (f : bool) (v : nat) (s : st) : st :=
  MkSt (map (fun n => if n_id n =? i then MkN (n_key n) (n_id n) f v else n) (tss s)) (cbs s) (fresh s) (log s).
Definition erase_id (i : nat) (s : st) : st := MkSt (filter (fun n => negb (n_id n =? i)) (tss s)) (cbs s) (fresh s) (log s).

(** [None]: undefined behaviour, an access through a pointer or iterator to an erased node. *)
Definition result := option st.

Section Exec.
  (** whether the object [k] was made with a (non-null) cleanup function *)
  Variable hasf : nat -> bool.
  (** the operations allowed while the values of the keys [busy] are being cleaned up *)
  Variable allowed : list nat -> op -> bool.

  (** set_tss_data 761-787, after the cleanup of the existing value: [i] is the node found *)
  Definition set_found (k i : nat) (f : bool) (v : nat) (s : st) : result :=
    if f || negb (v =? 0)
    then if has_id i s then Some (add_ev_if (negb (v =? 0)) (EInstalled k v) (write_id i f v s)) else None
    else Some (erase_key k s).
  (** the same when there is no node *)
  Definition set_new (k : nat) (f : bool) (v : nat) (s : st) : st :=
    if f || negb (v =? 0) then add_ev_if (negb (v =? 0)) (EInstalled k v) (add_node k f v s) else s.

  (** what an operation passes to set_tss_data: key, func, value, cleanup_existing; [None]: it does nothing.
      tss.hpp: reset 92-99, release 85-90, the destructor 64-67 *)
  Definition set_args (o : op) (s : st) : option (nat * bool * nat * bool) :=
    match o with
    | OReset k v => if get k s =? v then None else Some (k, hasf k, v, true)
    | ORelease k => Some (k, false, 0, false)
    | ODestroy k => Some (k, false, 0, true)
    | AtExit _ => None
    end.

  Inductive exec (busy : list nat) : st -> op -> result -> Prop :=
  | x_atexit s g : allowed busy (AtExit g) = true ->       (* add_thread_exit_function 711-717 *)
      exec busy s (AtExit g) (Some (MkSt (tss s) (g :: cbs s) (fresh s) (ERegistered g :: log s)))
  | x_same s k v : allowed busy (OReset k v) = true -> set_args (OReset k v) s = None -> exec busy s (OReset k v) (Some s)
  | x_new s o k f v c : allowed busy o = true -> set_args o s = Some (k, f, v, c) -> find_node k s = None ->
      exec busy s o (Some (set_new k f v s))
  | x_nocleanup s o k f v c n : allowed busy o = true -> set_args o s = Some (k, f, v, c) -> find_node k s = Some n ->
      c && n_func n && negb (n_val n =? 0) = false ->
      exec busy s o (set_found k (n_id n) f v
        (add_ev_if (negb (n_val n =? 0)) (if c then EDropped k (n_val n) else EReleased k (n_val n)) s))
  | x_cleanup s o k f v n ops s1 : allowed busy o = true -> set_args o s = Some (k, f, v, true) -> find_node k s = Some n ->
      n_func n && negb (n_val n =? 0) = true ->
      execs (k :: busy) (add_ev (ECleaned k (n_val n)) s) ops (Some s1) ->
      exec busy s o (set_found k (n_id n) f v s1)
  | x_cleanup_ub s o k f v n ops : allowed busy o = true -> set_args o s = Some (k, f, v, true) -> find_node k s = Some n ->
      n_func n && negb (n_val n =? 0) = true ->
      execs (k :: busy) (add_ev (ECleaned k (n_val n)) s) ops None ->
      exec busy s o None
  with execs (busy : list nat) : st -> list op -> result -> Prop :=
  | xs_nil s : execs busy s [] (Some s)
  | xs_cons s o s1 ops r : exec busy s o (Some s1) -> execs busy s1 ops r -> execs busy s (o :: ops) r
  | xs_ub s o ops : exec busy s o None -> execs busy s (o :: ops) None.

  (** tls_destructor 88-122: [cb_loop] is the inner loop 97-108, [tss_loop] the inner loop 109-119, [exit_loop] the outer one *)
  Inductive cb_loop : st -> result -> Prop :=
  | cb_done s : cbs s = [] -> cb_loop s (Some s)
  | cb_run s g rest ops s1 r : cbs s = g :: rest -> execs [] (MkSt (tss s) rest (fresh s) (ERan g :: log s)) ops (Some s1) ->
      cb_loop s1 r -> cb_loop s r
  | cb_ub s g rest ops : cbs s = g :: rest -> execs [] (MkSt (tss s) rest (fresh s) (ERan g :: log s)) ops None -> cb_loop s None.
  Inductive tss_loop : st -> result -> Prop :=
  | tl_done s : tss s = [] -> tss_loop s (Some s)
  | tl_plain s n r : In n (tss s) -> n_func n && negb (n_val n =? 0) = false ->
      tss_loop (erase_id (n_id n) (add_ev_if (negb (n_val n =? 0)) (EDropped (n_key n) (n_val n)) s)) r -> tss_loop s r
  | tl_clean s n ops s1 r : In n (tss s) -> n_func n && negb (n_val n =? 0) = true ->
      execs [n_key n] (add_ev (ECleaned (n_key n) (n_val n)) s) ops (Some s1) -> has_id (n_id n) s1 = true ->
      tss_loop (erase_id (n_id n) s1) r -> tss_loop s r
  | tl_erased s n ops s1 : In n (tss s) -> n_func n && negb (n_val n =? 0) = true ->
      execs [n_key n] (add_ev (ECleaned (n_key n) (n_val n)) s) ops (Some s1) -> has_id (n_id n) s1 = false ->
      tss_loop s None
  | tl_ub s n ops : In n (tss s) -> n_func n && negb (n_val n =? 0) = true ->
      execs [n_key n] (add_ev (ECleaned (n_key n) (n_val n)) s) ops None -> tss_loop s None.
  Inductive exit_loop : st -> result -> Prop :=
  | ex_done s : tss s = [] -> cbs s = [] -> exit_loop s (Some s)
  | ex_loop s s1 s2 r : ~ (tss s = [] /\ cbs s = []) -> cb_loop s (Some s1) -> tss_loop s1 (Some s2) -> exit_loop s2 r -> exit_loop s r
  | ex_ub1 s : ~ (tss s = [] /\ cbs s = []) -> cb_loop s None -> exit_loop s None
  | ex_ub2 s s1 : ~ (tss s = [] /\ cbs s = []) -> cb_loop s (Some s1) -> tss_loop s1 None -> exit_loop s None.

  (** A whole thread: it executes [ops], then ends. *)
  Inductive thread : list op -> result -> Prop :=
  | th_run ops s r : execs [] st0 ops (Some s) -> exit_loop s r -> thread ops r
  | th_ub ops : execs [] st0 ops None -> thread ops None.
End Exec.

Definition key_of (o : op) : option nat := match o with OReset k _ | ORelease k | ODestroy k => Some k | AtExit _ => None end.
(** Cleanup functions do not use the thread_specific_ptr whose value is being cleaned up. *)
Definition disciplined (busy : list nat) (o : op) : bool :=
  match key_of o with Some k => negb (existsb (Nat.eqb k) busy) | None => true end.
Definition anything (busy : list nat) (o : op) : bool := true.
