(** * Model of thread objects: thread, scoped_thread, strict_scoped_thread, thread_guard

    Sources: include/boost/thread/detail/thread.hpp: constructors 264-443, ~thread 250-260, move construction 340-344, move assignment 357-369, swap 444-447,
    join 759-766, do_try_join_until 768-784; src/pthread/thread.cpp: start_thread_noexcept 256-266, join_noexcept 315-361, do_try_join_until_noexcept 363-415,
    detach 423-438, interrupt 583-597, interruption_point 633-647, disable_interruption 670-686; include/boost/thread/scoped_thread.hpp 37-294,
    thread_guard.hpp 25-48, thread_functors.hpp 22-65.

    Any number of threads, each running a function: a list of commands on the objects of its own scope, which are destroyed in reverse order when the function returns,
    when a block ends or when an exception leaves the function.  Objects move from one scope to another as by-value arguments of a new thread, or through shared
    variables (the [box]) that are accessed under some mutex.
    [v3]: BOOST_THREAD_VERSION >= 3 (destroying or assigning to a joinable thread terminates the program; otherwise it detaches).
    Simplifications: a thread ends in one step, after its objects have been destroyed (JN_Model has the details of ending and joining, with several objects for one thread);
    join and try_join on an object that is not joinable do nothing ([EInvalid]: the code throws invalid_argument or asserts, according to the configuration);
    the only exceptions are thread_interrupted and thread_resource_error, and the only handlers are those of the commands' [ct] flags, for thread_resource_error;
    what happens to other threads when main returns is not modelled. *)
From Coq Require Export List Arith Lia Bool.
Export ListNotations.
Set Implicit Arguments.

(** thread_functors.hpp *)
Inductive functor := FDetach | FDetachIf | FJoin | FIntJoin.
Inductive kind := KPlain | KScoped (f : functor).
Definition functor_eqb (f g : functor) : bool :=
  match f, g with FDetach, FDetach | FDetachIf, FDetachIf | FJoin, FJoin | FIntJoin, FIntJoin => true | _, _ => false end.
Definition kind_eqb (k k' : kind) : bool :=
  match k, k' with KPlain, KPlain => true | KScoped f, KScoped g => functor_eqb f g | _, _ => false end.

(** The objects of a scope: a thread or scoped_thread, with the thread that it represents; a thread_guard for the object with index [i]; a disable_interruption. *)
Inductive obj := OThr (k : kind) (h : option nat) | OGuard (f : functor) (i : nat) | ODis (was : bool).

Inductive cmd :=
| New (k : kind) (args : list nat) (body : list cmd) (ct : bool)   (* a new object of kind [k], for a new thread that runs [body]; the objects [args] are moved to its parameters *)
| MoveNew (k : kind) (i : nat)          (* a new object, moved from object [i] (empty if there is no such object) *)
| MoveAssign (i j : nat)                (* object i = move(object j) *)
| Swap (i j : nat)
| Join (i : nat) (tm ct : bool)         (* join, or try_join_for/until if [tm] *)
| Detach (i : nat)
| Interrupt (i : nat)
| Guard (f : functor) (i : nat)
| Disable                               (* a disable_interruption object *)
| Point                                 (* this_thread::interruption_point() *)
| Pop                                   (* the scope of the last object ends *)
| Exchange (i b : nat).                 (* swap with shared variable [b] *)

Inductive event :=
| EStart (t j : nat)                    (* [t] has created thread [j] *)
| EFail (t : nat)                       (* the constructor of thread throws thread_resource_error *)
| EEnd (t : nat)                        (* thread [t] has ended *)
| EJoined (t j : nat)                   (* join, called by [t] on an object for thread [j], returns *)
| ETimeout (t j : nat)                  (* a timed join returns false *)
| EDeadlock (t : nat)                   (* join throws resource_deadlock_would_occur *)
| EInvalid (t : nat)                    (* join on an object that is not joinable *)
| EDetached (t j : nat)                 (* [t] has detached thread [j] *)
| ERequest (t j : nat)                  (* interrupt() *)
| EIntr (t : nat)                       (* thread_interrupted is thrown in [t] *)
| EDtor (t : nat) (f : functor) (h : option nat)        (* ~scoped_thread or ~thread_guard is called, for an object that represents [h] *)
| EDestroyed (t : nat) (f : functor) (h : option nat)   (* ... and has returned *)
| EAssigned (t : nat) (f : option functor) (h : option nat).   (* move assignment to an object that represented [h] has returned; [f]: it is a scoped_thread *)

(** Why std::terminate was called: a joinable thread was destroyed or assigned to; a destructor failed to join its own thread; thread_resource_error or
    thread_interrupted was not caught. *)
Inductive reason := RJoinable | RSelf | RUncaught | RIntr.

(** What a thread has still to do. *)
Inductive act :=
| Do (c : cmd)
| APop                                             (* destroy the last object *)
| AFun (f : functor) (i : nat) (d : bool)          (* the functor, applied to object [i]; [d]: in a destructor *)
| AJoin (i : nat) (w d ct tm : bool)               (* join; [w]: it waits already *)
| AFinish (f : functor) (was : bool) (h : option nat)     (* the end of ~scoped_thread or ~thread_guard *)
| AAssign (f : option functor) (i j : nat) (h : option nat)  (* thread::operator= *)
| AThrow.                                          (* thread_resource_error is not caught *)

(** [unw]: the function is being left; [en], [rq]: interrupt_enabled and interrupt_requested; [fin]: the thread has ended *)
Record thr := MkT { loc : list obj; cont : list act; unw : bool; en : bool; rq : bool; fin : bool }.
Record cfg := MkC { ths : list thr; box : list (option nat); why : option reason; hist : list event }.
(** thread 0 is main, whose data is an externally_launched_thread: interruption is never enabled (thread.cpp 206-213) *)
Definition init (main : list cmd) (nbox : nat) : cfg := MkC [MkT [] (map Do main) false false false false] (repeat None nbox) None [].

Fixpoint upd (A : Type) (l : list A) (i : nat) (x : A) : list A :=
  match l, i with [], _ => [] | _ :: r, 0 => x :: r | y :: r, S j => y :: upd r j x end.
(** the thread that object [i] represents *)
Definition hof (l : list obj) (i : nat) : option nat := match nth_error l i with Some (OThr _ h) => h | _ => None end.
Definition seth (l : list obj) (i : nat) (h : option nat) : list obj := match nth_error l i with Some (OThr k _) => upd l i (OThr k h) | _ => l end.
(** the objects [args] are moved to new ones *)
Fixpoint take_all (l : list obj) (args : list nat) : list obj * list obj :=
  match args with
  | [] => (l, [])
  | i :: r => match nth_error l i with
              | Some (OThr k h) => let (l', os) := take_all (upd l i (OThr k None)) r in (l', OThr k h :: os)
              | _ => take_all l r
              end
  end.

(** The effect of a step: the thread itself, events (newest first), a new thread, a thread that gets an interruption request, a shared variable, termination. *)
Record eff := MkE { ex : thr; ee : list event; enew : option thr; ereq : option nat; ebox : option (nat * option nat); ewhy : option reason }.
Definition go (x : thr) (l : list obj) (r : list act) (ev : list event) : option eff := Some (MkE (MkT l r (unw x) (en x) (rq x) (fin x)) ev None None None None).
Definition die (x : thr) (w : reason) (ev : list event) : option eff := Some (MkE x ev None None None (Some w)).
(** an exception that is not caught in the function, or its end: the objects are destroyed *)
Definition leave (x : thr) (q : bool) : thr := MkT (loc x) (repeat APop (length (loc x))) true (en x) q (fin x).

(** this choice of the environment: the normal course; thread creation fails, or the wait is interrupted; the timed wait times out *)
Inductive choice := Go | Fail | Late.

Definition lstep (v3 : bool) (n : nat) (ended : nat -> bool) (bx : list (option nat)) (t : nat) (x : thr) (ch : choice) : option eff :=
  match cont x with
  (* the function has returned / everything is destroyed *)
  | [] =>
      if unw x then Some (MkE (MkT (loc x) [] true (en x) (rq x) true) [EEnd t] None None None None)
      else Some (MkE (leave x (rq x)) [] None None None None)
  (* thread(attrs, f, args...), detail/thread.hpp 371-393; when start_thread fails the stored arguments are destroyed with thread_info *)
  | Do (New k args body ct) :: r =>
      let (l', os) := take_all (loc x) args in
      match ch with
      | Go => Some (MkE (MkT (l' ++ [OThr k (Some n)]) r (unw x) (en x) (rq x) (fin x)) [EStart t n] (Some (MkT os (map Do body) false true false false)) None None None)
      | Fail => go x (l' ++ os) (repeat APop (length os) ++ (if ct then r else [AThrow])) [EFail t]
      | Late => None
      end
  (* 340-344; scoped_thread.hpp 161-173: from a thread or a scoped_thread of the same type *)
  | Do (MoveNew k i) :: r =>
      match nth_error (loc x) i with
      | Some (OThr k' h) => if kind_eqb k' KPlain || kind_eqb k' k then go x (upd (loc x) i (OThr k' None) ++ [OThr k h]) r [] else go x (loc x ++ [OThr k None]) r []
      | _ => go x (loc x ++ [OThr k None]) r []
      end
  (* 357-369; scoped_thread.hpp 197-204: no disable_interruption here *)
  | Do (MoveAssign i j) :: r =>
      match nth_error (loc x) i, nth_error (loc x) j with
      | Some (OThr KPlain h), Some (OThr KPlain _) => go x (loc x) (AAssign None i j h :: r) []
      | Some (OThr (KScoped f) h), Some (OThr (KScoped g) _) =>
          if functor_eqb f g then go x (loc x) (AFun f i false :: AAssign (Some f) i j h :: r) [] else go x (loc x) r []
      | _, _ => go x (loc x) r []
      end
  | AAssign f i j h :: r =>
      match nth_error (loc x) i, nth_error (loc x) j with
      | Some (OThr k hi), Some (OThr _ _) =>
          let l1 := upd (loc x) i (OThr k None) in
          let l2 := upd (seth l1 j None) i (OThr k (hof l1 j)) in
          match hi with
          | Some m => if v3 then die x RJoinable [] else go x l2 r [EAssigned t f h; EDetached t m]
          | None => go x l2 r [EAssigned t f h]
          end
      | _, _ => go x (loc x) r []
      end
  (* 444-447, scoped_thread.hpp 209-212 *)
  | Do (Swap i j) :: r =>
      match nth_error (loc x) i, nth_error (loc x) j with
      | Some (OThr k h), Some (OThr k' h') => if kind_eqb k k' then go x (seth (seth (loc x) i h') j h) r [] else go x (loc x) r []
      | _, _ => go x (loc x) r []
      end
  | Do (Join i tm ct) :: r => go x (loc x) (AJoin i false false ct tm :: r) []
  (* join 759-766 and join_noexcept, do_try_join_until *)
  | AJoin i w d ct tm :: r =>
      match hof (loc x) i with
      | None => go x (loc x) r [EInvalid t]
      | Some j =>
          if j =? t then (if d then die x RSelf [EDeadlock t] else if ct then go x (loc x) r [EDeadlock t] else die x RUncaught [EDeadlock t])
          else match ch with
          | Go => if ended j then go x (seth (loc x) i None) r [EJoined t j]
                  else if w then None
                  else if en x && rq x then (if d then die x RIntr [EIntr t] else Some (MkE (leave x false) [EIntr t] None None None None))
                  else go x (loc x) (AJoin i true d ct tm :: r) []
          | Fail => if w && en x && rq x then (if d then die x RIntr [EIntr t] else Some (MkE (leave x false) [EIntr t] None None None None)) else None
          | Late => if w && tm then go x (loc x) r [ETimeout t j] else None
          end
      end
  (* detach 423-438 *)
  | Do (Detach i) :: r =>
      match hof (loc x) i with Some m => go x (seth (loc x) i None) r [EDetached t m] | None => go x (loc x) r [] end
  (* interrupt 583-597 *)
  | Do (Interrupt i) :: r =>
      match hof (loc x) i with
      | Some m => Some (MkE (MkT (loc x) r (unw x) (en x) (rq x) (fin x)) [ERequest t m] None (Some m) None None)
      | None => go x (loc x) r []
      end
  | Do (Guard f i) :: r => match nth_error (loc x) i with Some (OThr _ _) => go x (loc x ++ [OGuard f i]) r [] | _ => go x (loc x) r [] end
  (* disable_interruption 670-677 *)
  | Do Disable :: r => Some (MkE (MkT (loc x ++ [ODis (en x)]) r (unw x) false (rq x) (fin x)) [] None None None None)
  (* interruption_point 633-647 *)
  | Do Point :: r => if en x && rq x then Some (MkE (leave x false) [EIntr t] None None None None) else go x (loc x) r []
  | Do Pop :: r => go x (loc x) (APop :: r) []
  | Do (Exchange i b) :: r =>
      match nth_error (loc x) i, nth_error bx b with
      | Some (OThr KPlain h), Some h' => Some (MkE (MkT (upd (loc x) i (OThr KPlain h')) r (unw x) (en x) (rq x) (fin x)) [] None None (Some (b, h)) None)
      | _, _ => go x (loc x) r []
      end
  (* ~thread 250-260; ~disable_interruption 679-686; ~scoped_thread, scoped_thread.hpp 180-190; ~strict_scoped_thread 86-95; ~thread_guard, thread_guard.hpp 38-47 *)
  | APop :: r =>
      let i := length (loc x) - 1 in
      match nth_error (loc x) i with
      | None => go x (loc x) r []
      | Some (ODis was) => Some (MkE (MkT (removelast (loc x)) r (unw x) was (rq x) (fin x)) [] None None None None)
      | Some (OGuard f g) => Some (MkE (MkT (loc x) (AFun f g true :: AFinish f (en x) (hof (loc x) g) :: r) (unw x) false (rq x) (fin x)) [EDtor t f (hof (loc x) g)] None None None None)
      | Some (OThr (KScoped f) h) => Some (MkE (MkT (loc x) (AFun f i true :: AFinish f (en x) h :: r) (unw x) false (rq x) (fin x)) [EDtor t f h] None None None None)
      | Some (OThr KPlain None) => go x (removelast (loc x)) r []
      | Some (OThr KPlain (Some m)) => if v3 then die x RJoinable [] else go x (removelast (loc x)) r [EDetached t m]
      end
  | AFinish f was h :: r =>
      match hof (loc x) (length (loc x) - 1) with
      | Some m => if v3 then die x RJoinable []
                  else Some (MkE (MkT (removelast (loc x)) r (unw x) was (rq x) (fin x)) [EDestroyed t f h; EDetached t m] None None None None)
      | None => Some (MkE (MkT (removelast (loc x)) r (unw x) was (rq x) (fin x)) [EDestroyed t f h] None None None None)
      end
  (* thread_functors.hpp *)
  | AFun f i d :: r =>
      match hof (loc x) i with
      | None => go x (loc x) r []
      | Some m => match f with
                  | FDetach | FDetachIf => go x (seth (loc x) i None) r [EDetached t m]
                  | FJoin => go x (loc x) (AJoin i false d false false :: r) []
                  | FIntJoin => Some (MkE (MkT (loc x) (AJoin i false d false false :: r) (unw x) (en x) (rq x) (fin x)) [ERequest t m] None (Some m) None None)
                  end
      end
  | AThrow :: _ => die x RUncaught []
  end.

Definition has_ended (s : cfg) (j : nat) : bool := match nth_error (ths s) j with Some y => fin y | None => false end.
Definition request (l : list thr) (o : option nat) : list thr :=
  match o with
  | Some j => match nth_error l j with Some y => upd l j (MkT (loc y) (cont y) (unw y) (en y) true (fin y)) | None => l end
  | None => l
  end.
Definition setbox (l : list (option nat)) (o : option (nat * option nat)) : list (option nat) := match o with Some (b, h) => upd l b h | None => l end.
Definition apply (s : cfg) (t : nat) (e : eff) : cfg :=
  MkC (request (upd (ths s) t (ex e)) (ereq e) ++ match enew e with Some y => [y] | None => [] end) (setbox (box s) (ebox e)) (ewhy e) (ee e ++ hist s).

(** Thread [t] takes a step; the others do nothing, and nothing happens after std::terminate. *)
Definition step (v3 : bool) (s : cfg) (t : nat) (ch : choice) : option cfg :=
  match why s with
  | Some _ => None
  | None => match nth_error (ths s) t with
            | None => None
            | Some x => if fin x then None
                        else match lstep v3 (length (ths s)) (has_ended s) (box s) t x ch with Some e => Some (apply s t e) | None => None end
            end
  end.
Inductive reach (v3 : bool) (main : list cmd) (nbox : nat) : cfg -> Prop :=
| reach_init : reach v3 main nbox (init main nbox)
| reach_step s t ch s' : reach v3 main nbox s -> step v3 s t ch = Some s' -> reach v3 main nbox s'.
