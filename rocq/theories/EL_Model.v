(** * Model of externally_locked and externally_locked_stream

    Source: include/boost/thread/externally_locked.hpp: get 119-163 (and 258-317 for references); strict_lock.hpp: strict_lock 28-109 (owns_lock 96-99), nested_strict_lock 122-212
    (owns_lock 201-204); externally_locked_stream.hpp: stream_guard 26-81, hold 109-112, the operators 121-164; detail/config.hpp 61-74 (BOOST_THREAD_ASSERT_PRECONDITION:
    a check, or nothing in the default configuration).

    Any number of threads, mutexes, guards, cloaked objects.  A guard is a strict_lock, a nested_strict_lock or a stream_guard: an object that locks a mutex from its
    construction to its destruction.  Mutexes are abstract (their implementations: MX_Model.v, SM_Model.v); they are recursive: others allow fewer executions.
    Simplifications: a nested_strict_lock and the lock it nests are constructed and destroyed together (what happens between them: LK_Model.v); the cloaked objects are
    not assigned to or swapped; a guard that has been moved from is only destroyed; guards stay with their thread; the reference that get returns is used only while the guard lives. *)
From Coq Require Export List Arith Lia Bool.
Export ListNotations.
Set Implicit Arguments.

Inductive mst := MFree | MEx (t n : nat) | MSh (n : nat).
(** [gm]: mtx_, None when moved from; [gs]: the nested lock is a shared_lock *)
Record guard := MkG { gt : nat; gm : option nat; gs : bool; glive : bool }.
(** a cloaked object: its mutex, and what it refers to (two externally_locked<T&> may refer to the same object) *)
Record obj := MkO { om : nat; ox : nat }.

Inductive event :=
| EHeld (g t m : nat) (sh : bool)        (* thread t has constructed guard g, on mutex m *)
| EMoved (g g' : nat)                    (* guard g' has been constructed from g *)
| EDropped (g : nat)                     (* guard g has been destroyed *)
| EBegin (t g o : nat)                   (* get(g) of cloaked object o has returned and its result is being used (for a stream: one item is output) *)
| EEnd (t g o : nat)                     (* the use has ended *)
| EThrow (t g o : nat).                  (* get threw lock_error *)

(** [acc]: uses in progress, guard and object *)
Record sys := MkS { ms : list mst; gs_ : list guard; acc : list (nat * nat); ub : bool; hist : list event }.
Definition sys0 (nm : nat) : sys := MkS (repeat MFree nm) [] [] false [].

Fixpoint upd {A} (l : list A) (i : nat) (x : A) : list A :=
  match l, i with
  | [], _ => []
  | _ :: l', 0 => x :: l'
  | y :: l', S i' => y :: upd l' i' x
  end.

(** lock, lock_shared: Some when the mutex can be acquired now *)
Definition m_lock (x : mst) (t : nat) (sh : bool) : option mst :=
  match x, sh with
  | MFree, false => Some (MEx t 1)
  | MFree, true => Some (MSh 1)
  | MEx u n, false => if u =? t then Some (MEx t (S n)) else None
  | MSh n, true => Some (MSh (S n))
  | _, _ => None
  end.
(** unlock, unlock_shared: None when the caller does not own it *)
Definition m_unlock (x : mst) (t : nat) (sh : bool) : option mst :=
  match x, sh with
  | MEx u (S n), false => if u =? t then Some (match n with 0 => MFree | _ => MEx u n end) else None
  | MSh (S n), true => Some (match n with 0 => MFree | _ => MSh n end)
  | _, _ => None
  end.

Inductive label :=
| LHold (t m : nat) (sh : bool)    (* strict_lock(m), stream_guard(s), s.hold(), s << ...; sh: nested_strict_lock<shared_lock> *)
| LMove (g : nat)                  (* stream_guard's move constructor 48-52; the return of s << ... 143-148 *)
| LDrop (g : nat)                  (* destructors: strict_lock.hpp 69-72, 176-179, stream_guard 54-57 *)
| LGet (g o : nat) | LEnd (g o : nat).

Fixpoint remove1 (x : nat * nat) (l : list (nat * nat)) : list (nat * nat) :=
  match l with
  | [] => []
  | y :: l' => if (fst x =? fst y) && (snd x =? snd y) then l' else y :: remove1 x l'
  end.
Definition busy (s : sys) (g : nat) : bool := existsb (fun a => fst a =? g) (acc s).
Definition in_use (s : sys) (g o : nat) : bool := existsb (fun a => (fst a =? g) && (snd a =? o)) (acc s).

Section Exec.
  (** [objs]: the cloaked objects; [chk]: BOOST_THREAD_THROW_IF_PRECONDITION_NOT_SATISFIED is defined; [care]: the program passes get only guards that lock the
      associated mutex, as get requires *)
  Variable objs : list obj.
  Variable chk care : bool.

  Definition owns_lock (g : guard) (m : nat) : bool := match gm g with Some k => k =? m | None => false end.

  Definition exec (s : sys) (l : label) : option sys :=
    if ub s then None else
    match l with
    | LHold t m sh =>
        match nth_error (ms s) m with
        | Some x => match m_lock x t sh with
                    | Some x' => Some (MkS (upd (ms s) m x') (gs_ s ++ [MkG t (Some m) sh true]) (acc s) false (EHeld (length (gs_ s)) t m sh :: hist s))
                    | None => None
                    end
        | None => None
        end
    | LMove g =>
        match nth_error (gs_ s) g with
        | Some x => if glive x && negb (busy s g) then
                      match gm x with
                      | Some m => Some (MkS (ms s) (upd (gs_ s) g (MkG (gt x) None (gs x) true) ++ [MkG (gt x) (Some m) (gs x) true]) (acc s) false (EMoved g (length (gs_ s)) :: hist s))
                      | None => None
                      end
                    else None
        | None => None
        end
    | LDrop g =>
        match nth_error (gs_ s) g with
        | Some x => if glive x && negb (busy s g) then
                      match gm x with
                      | None => Some (MkS (ms s) (upd (gs_ s) g (MkG (gt x) None (gs x) false)) (acc s) false (EDropped g :: hist s))
                      | Some m => match nth_error (ms s) m with
                                  | Some y => match m_unlock y (gt x) (gs x) with
                                              | Some y' => Some (MkS (upd (ms s) m y') (upd (gs_ s) g (MkG (gt x) (Some m) (gs x) false)) (acc s) false (EDropped g :: hist s))
                                              | None => Some (MkS (ms s) (gs_ s) (acc s) true (hist s))
                                              end
                                  | None => None
                                  end
                      end
                    else None
        | None => None
        end
    | LGet g o =>
        match nth_error (gs_ s) g, nth_error objs o with
        | Some x, Some b =>
            match gm x with
            | Some _ =>
                if glive x && (negb care || owns_lock x (om b)) then
                  if chk && negb (owns_lock x (om b)) then Some (MkS (ms s) (gs_ s) (acc s) false (EThrow (gt x) g o :: hist s))
                  else Some (MkS (ms s) (gs_ s) ((g, o) :: acc s) false (EBegin (gt x) g o :: hist s))
                else None
            | None => None
            end
        | _, _ => None
        end
    | LEnd g o =>
        match nth_error (gs_ s) g with
        | Some x => if in_use s g o then Some (MkS (ms s) (gs_ s) (remove1 (g, o) (acc s)) false (EEnd (gt x) g o :: hist s)) else None
        | None => None
        end
    end.
  Fixpoint runl (s : sys) (ls : list label) : option sys :=
    match ls with
    | [] => Some s
    | l :: ls' => match exec s l with Some s' => runl s' ls' | None => None end
    end.
  Definition reach (nm : nat) (s : sys) : Prop := exists ls, runl (sys0 nm) ls = Some s.
End Exec.
