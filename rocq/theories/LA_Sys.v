(** * Any number of threads that use boost::lock

    Each thread makes a sequence of calls of boost::lock (in any of its forms, lock_algorithms.hpp:143-461) and unlocks
    the mutexes one by one before its next call.  The mutexes are plain mutexes: at most one owner, lock() waits for the
    mutex to be free, try_lock() fails if it is not (and may fail spuriously), and both may throw. *)

From Verif Require Export LA_Model.
Set Implicit Arguments.

Inductive thread :=
| TIdle (todo : list call)
| TIn (c : call) (h : list ans) (todo : list call)   (* in boost::lock, with the answers so far *)
| TCrit (ms : list nat) (todo : list call).          (* has returned; still has to unlock [ms] *)

Record sys := MkSys { owner : nat -> option nat; threads : list thread }.

Fixpoint set_nth (l : list thread) (i : nat) (x : thread) : list thread :=
  match l, i with
  | [], _ => []
  | _ :: l', 0 => x :: l'
  | y :: l', S i' => y :: set_nth l' i' x
  end.
Definition set_owner (o : nat -> option nat) (m : nat) (v : option nat) : nat -> option nat :=
  fun x => if Nat.eqb m x then v else o x.

(** The mutex answers [x] to the action [a] of thread [t]; the new owners. *)
Inductive answers (o : nat -> option nat) (t : nat) : act -> ans -> (nat -> option nat) -> Prop :=
| ans_lock m : o m = None -> answers o t (ALock m) AOk (set_owner o m (Some t))
| ans_lock_throw m : answers o t (ALock m) AThrow o
| ans_try m : o m = None -> answers o t (ATry m) AOk (set_owner o m (Some t))
| ans_try_fail m : answers o t (ATry m) AFail o
| ans_try_throw m : answers o t (ATry m) AThrow o
| ans_unlock m : answers o t (AUnlock m) AOk (set_owner o m None).

Inductive sstep : sys -> sys -> Prop :=
| st_call s t c cs : nth_error (threads s) t = Some (TIdle (c :: cs)) ->
    sstep s (MkSys (owner s) (set_nth (threads s) t (TIn c [] cs)))
| st_act s t c h cs a tr x o' : nth_error (threads s) t = Some (TIn c h cs) -> run_lock c h = Pend a tr ->
    answers (owner s) t a x o' -> sstep s (MkSys o' (set_nth (threads s) t (TIn c (h ++ [x]) cs)))
| st_ret s t c h cs h' tr : nth_error (threads s) t = Some (TIn c h cs) -> run_lock c h = Val tt h' tr ->
    sstep s (MkSys (owner s) (set_nth (threads s) t (TCrit (args c) cs)))
| st_exn s t c h cs h' tr : nth_error (threads s) t = Some (TIn c h cs) -> run_lock c h = Exn h' tr ->
    sstep s (MkSys (owner s) (set_nth (threads s) t (TIdle cs)))
| st_unlock s t m ms cs : nth_error (threads s) t = Some (TCrit (m :: ms) cs) ->
    sstep s (MkSys (set_owner (owner s) m None) (set_nth (threads s) t (TCrit ms cs)))
| st_leave s t cs : nth_error (threads s) t = Some (TCrit [] cs) ->
    sstep s (MkSys (owner s) (set_nth (threads s) t (TIdle cs))).

(** All threads idle, nothing locked. *)
Inductive sreach (todos : list (list call)) : sys -> Prop :=
| sr_init : sreach todos (MkSys (fun _ => None) (map TIdle todos))
| sr_step s s' : sreach todos s -> sstep s s' -> sreach todos s'.

(** Thread [t] waits in a lock() call of boost::lock for mutex [m] that another call has locked. *)
Definition waits_for (s : sys) (t m : nat) : Prop :=
  exists c h cs tr, nth_error (threads s) t = Some (TIn c h cs) /\ run_lock c h = Pend (ALock m) tr /\ owner s m <> None.

(** A thread that has made all its calls and unlocked everything. *)
Definition done (s : sys) (t : nat) : Prop := nth_error (threads s) t = Some (TIdle []).
