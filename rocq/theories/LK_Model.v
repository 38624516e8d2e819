(** * Model of the lock objects

    Sources: include/boost/thread/lock_types.hpp:98-1119 (unique_lock, shared_lock, upgrade_lock,
    upgrade_to_unique_lock; try_lock_wrapper 1125-1219 forwards to unique_lock), lock_guard.hpp:24-70,
    shared_lock_guard.hpp:22-46, strict_lock.hpp:26-215, reverse_lock.hpp:17-44.
    A program is a sequence of operations on lock objects that live in a store; objects may be destroyed in any
    order.  The mutexes themselves are not modelled here (see SM_, V2_, MX_Model): a call of a mutex succeeds, fails
    or throws as the environment says; [s_hold m k] counts how often mutex [m] is held in mode [k]. A call that fails or
    throws changes nothing; unlocking or converting what is not held is undefined behaviour.
    Simplifications: the timed constructors and operations differ from the try ones only in the function of the mutex
    that they call, and are identified with them. *)

From Coq Require Export List Arith Lia Bool.
From Verif Require Import Monitor.
Export ListNotations.
Set Implicit Arguments.

(** Class of the lock object, and mode in which it holds the mutex. *)
Inductive kind := KU | KS | KG.   (* unique_lock, shared_lock, upgrade_lock *)
Definition kind_eqb (a b : kind) : bool := match a, b with KU, KU | KS, KS | KG, KG => true | _, _ => false end.

(** lock_types.hpp:102-103, 506-507, 769-770: Mutex* m; bool is_locked *)
Record lk := MkLk { l_kind : kind; l_mx : option nat; l_own : bool }.
Definition lk_empty (k : kind) : lk := MkLk k None false.

Inductive obj :=
| OLock (l : lk)
| OUp (src : option nat) (excl : lk)      (* upgrade_to_unique_lock: source, exclusive *)
| OGuard (k : kind) (m : nat)             (* lock_guard, strict_lock; shared_lock_guard *)
| ORev (tgt : nat) (mtx : option nat)     (* reverse_lock: m, mtx *)
| ONest (tgt : nat) (tmp : lk).           (* nested_strict_lock: lk_, tmp_lk_ *)

Definition hold := nat -> kind -> nat.
(** [s_raw m k]: locks of [m] in mode [k] that the program took itself, or took over with release(), and that no
    lock object is responsible for. *)
Record lstate := MkS { s_objs : list (option obj); s_hold : hold; s_raw : hold }.
Definition l_init : lstate := MkS [] (fun _ _ => 0) (fun _ _ => 0).

Definition same (m : nat) (k : kind) (m' : nat) (k' : kind) : bool := (m =? m') && kind_eqb k k'.
Definition incr (h : hold) (m : nat) (k : kind) : hold := fun m' k' => if same m k m' k' then S (h m' k') else h m' k'.
Definition decr (h : hold) (m : nat) (k : kind) : hold := fun m' k' => if same m k m' k' then h m' k' - 1 else h m' k'.

(** Answer of the mutex to the (at most one) locking call of an operation. *)
Inductive ans := AOk | AFail | AThrow.

(** returns; returns a bool; throws lock_error(operation_not_permitted) / lock_error(resource_deadlock_would_occur);
    lets an exception of the mutex out; std::terminate; undefined behaviour *)
Inductive lres := RUnit | RBool (b : bool) | RPerm | RDeadlk | RMx | RTerm | RUB.

Inductive lop :=
| LUserLock (m : nat) (k : kind) | LUserUnlock (m : nat) (k : kind)   (* the program calls the mutex itself *)
| LDefault (k : kind) | LCtor (k : kind) (m : nat) | LAdopt (k : kind) (m : nat) | LDefer (k : kind) (m : nat) | LTry (k : kind) (m : nat)
| LMove (a : nat) | LConv (k : kind) (a : nat) | LTryConv (k : kind) (a : nat)
| LAssign (a b : nat) | LConvAssign (a b : nat) | LSwap (a b : nat)
| LLock (a : nat) | LTryLock (a : nat) | LUnlock (a : nat) | LRelease (a : nat)
| LUpCtor (a : nat) | LUpMove (a : nat) | LUpAssign (a b : nat) | LUpSwap (a b : nat)
| LGuard (k : kind) (m : nat) | LGuardAdopt (k : kind) (m : nat)
| LRev (k : kind) (a : nat) | LNest (a : nat)
| LDestroy (a : nat).

(** [m->unlock()], [m->unlock_shared()], [m->unlock_upgrade()] *)
Definition mx_unlock (m : nat) (k : kind) (h : hold) : option hold := if h m k =? 0 then None else Some (decr h m k).

(** The destructors: unique_lock 327-333, shared_lock 628-634, upgrade_lock 925-931 *)
Definition destroy_lk (l : lk) (h : hold) : option hold :=
  if l_own l then match l_mx l with Some m => mx_unlock m (l_kind l) h | None => None end else Some h.

(** The converting constructors that cannot fail: shared_lock(unique_lock&&) 564-573, shared_lock(upgrade_lock&&)
    575-584, upgrade_lock(unique_lock&&) 821-830; and, when the mutex grants it, unique_lock(upgrade_lock&&)
    1041-1049. *)
Definition conv_lk (k : kind) (l : lk) (h : hold) : option (lk * hold) :=
  if l_own l then
    match l_mx l with
    | Some m => match mx_unlock m (l_kind l) h with Some h' => Some (MkLk k (l_mx l) true, incr h' m k) | None => None end
    | None => None
    end
  else Some (MkLk k (l_mx l) false, h).

Definition can_conv (k' k : kind) : bool :=
  match k', k with KU, KS | KU, KG | KG, KS | KG, KU => true | _, _ => false end.
(** unique_lock(upgrade_lock&&, try/timed) 204-259, unique_lock(shared_lock&&, try/timed) 263-319,
    upgrade_lock(shared_lock&&, try/timed) 851-906 *)
Definition can_try_conv (k' k : kind) : bool :=
  match k', k with KG, KU | KS, KU | KS, KG => true | _, _ => false end.

Definition get (s : lstate) (a : nat) : option obj := match nth_error (s_objs s) a with Some (Some o) => Some o | _ => None end.
Definition put (s : lstate) (a : nat) (o : option obj) : lstate := MkS (upd (s_objs s) a o) (s_hold s) (s_raw s).
Definition new (s : lstate) (o : obj) : lstate := MkS (s_objs s ++ [Some o]) (s_hold s) (s_raw s).
Definition set_hold (s : lstate) (h : hold) : lstate := MkS (s_objs s) h (s_raw s).
Definition set_raw (s : lstate) (r : hold) : lstate := MkS (s_objs s) (s_hold s) r.

(** Does an object refer to object [a]?  A program must not destroy [a] before it. *)
Definition refers (a : nat) (o : option obj) : bool :=
  match o with Some (OUp (Some b) _) | Some (ORev b _) | Some (ONest b _) => a =? b | _ => false end.

(** Assign [l] to the lock object [a] (a temporary takes the old value and is destroyed):
    unique_lock 186-199, shared_lock 586-592, upgrade_lock 832-838 *)
Definition assign (s : lstate) (a : nat) (l : lk) : option (lstate * lres) :=
  match get s a with
  | Some (OLock old) =>
      match destroy_lk old (s_hold s) with
      | Some h => Some (set_hold (put s a (Some (OLock l))) h, RUnit)
      | None => Some (s, RUB)
      end
  | _ => None
  end.

(** [None]: the operation does not exist for these objects, or the program breaks a rule of C++ or a documented
    precondition (use after destruction, adopting or unlocking what the program does not hold). *)
Definition lstep (s : lstate) (op : lop) (w : ans) : option (lstate * lres) :=
  match op with
  | LUserLock m k => Some (set_raw (set_hold s (incr (s_hold s) m k)) (incr (s_raw s) m k), RUnit)
  | LUserUnlock m k =>
      if s_raw s m k =? 0 then None
      else match mx_unlock m k (s_hold s) with
           | Some h => Some (set_raw (set_hold s h) (decr (s_raw s) m k), RUnit)
           | None => Some (s, RUB)
           end
  (* 117-119, 513-515, 776-778 *)
  | LDefault k => Some (new s (OLock (lk_empty k)), RUnit)
  (* 121-125, 517-521, 780-784: lock() in the constructor *)
  | LCtor k m =>
      match w with
      | AThrow => Some (s, RMx)
      | _ => Some (set_hold (new s (OLock (MkLk k (Some m) true))) (incr (s_hold s) m k), RUnit)
      end
  (* 126-132, 522-528, 785-791 *)
  | LAdopt k m =>
      if s_raw s m k =? 0 then None
      else Some (set_raw (new s (OLock (MkLk k (Some m) true))) (decr (s_raw s) m k), RUnit)
  (* 133-135, 529-531, 792-794 *)
  | LDefer k m => Some (new s (OLock (MkLk k (Some m) false)), RUnit)
  (* 136-165, 532-556, 795-813 *)
  | LTry k m =>
      match w with
      | AThrow => Some (s, RMx)
      | AFail => Some (new s (OLock (MkLk k (Some m) false)), RUnit)
      | AOk => Some (set_hold (new s (OLock (MkLk k (Some m) true))) (incr (s_hold s) m k), RUnit)
      end
  (* 167-172, 557-562, 814-819 *)
  | LMove a =>
      match get s a with
      | Some (OLock l) => Some (new (put s a (Some (OLock (lk_empty (l_kind l))))) (OLock l), RUnit)
      | _ => None
      end
  | LConv k a =>
      match get s a with
      | Some (OLock l) =>
          if can_conv (l_kind l) k then
            match l_kind l, l_own l, w with
            (* unlock_upgrade_and_lock throws *)
            | KG, true, AThrow => match k with KU => Some (s, RMx) | _ => None end
            | _, _, _ =>
                match conv_lk k l (s_hold s) with
                | Some (l', h) => Some (set_hold (new (put s a (Some (OLock (lk_empty (l_kind l))))) (OLock l')) h, RUnit)
                | None => Some (s, RUB)
                end
            end
          else None
      | _ => None
      end
  | LTryConv k a =>
      match get s a with
      | Some (OLock l) =>
          if can_try_conv (l_kind l) k then
            match l_own l, w with
            | true, AThrow => Some (s, RMx)
            | true, AFail => Some (new s (OLock (lk_empty k)), RUnit)
            | _, _ =>
                match conv_lk k l (s_hold s) with
                | Some (l', h) => Some (set_hold (new (put s a (Some (OLock (lk_empty (l_kind l))))) (OLock l')) h, RUnit)
                | None => Some (s, RUB)
                end
            end
          else None
      | _ => None
      end
  (* a = move(b) *)
  | LAssign a b =>
      match get s a, get s b with
      | Some (OLock la), Some (OLock lb) =>
          if kind_eqb (l_kind la) (l_kind lb) then assign (put s b (Some (OLock (lk_empty (l_kind lb))))) a lb else None
      | _, _ => None
      end
  (* a = move(b) for locks of different classes: 177-183, 593-606, 840-846 *)
  | LConvAssign a b =>
      match get s a, get s b with
      | Some (OLock la), Some (OLock lb) =>
          if can_conv (l_kind lb) (l_kind la) then
            match l_kind lb, l_kind la, l_own lb, w with
            | KG, KU, true, AThrow => Some (s, RMx)
            | _, _, _, _ =>
                match conv_lk (l_kind la) lb (s_hold s) with
                | Some (l', h) => assign (set_hold (put s b (Some (OLock (lk_empty (l_kind lb))))) h) a l'
                | None => Some (s, RUB)
                end
            end
          else None
      | _, _ => None
      end
  (* 321-325, 609-613, 908-912 *)
  | LSwap a b =>
      match get s a, get s b with
      | Some (OLock la), Some (OLock lb) =>
          if kind_eqb (l_kind la) (l_kind lb) then Some (put (put s a (Some (OLock lb))) b (Some (OLock la)), RUnit) else None
      | _, _ => None
      end
  (* 334-348, 635-647, 932-946 *)
  | LLock a =>
      match get s a with
      | Some (OLock l) =>
          match l_mx l with
          | None => Some (s, RPerm)
          | Some m =>
              if l_own l then Some (s, RDeadlk)
              else match w with
                   | AThrow => Some (s, RMx)
                   | _ => Some (set_hold (put s a (Some (OLock (MkLk (l_kind l) (Some m) true)))) (incr (s_hold s) m (l_kind l)), RUnit)
                   end
          end
      | _ => None
      end
  (* 349-363 and the timed forms 364-437; 648-719; 947-961, 979-1006 *)
  | LTryLock a =>
      match get s a with
      | Some (OLock l) =>
          match l_mx l with
          | None => Some (s, RPerm)
          | Some m =>
              if l_own l then Some (s, RDeadlk)
              else match w with
                   | AThrow => Some (s, RMx)
                   | AFail => Some (put s a (Some (OLock (MkLk (l_kind l) (Some m) false))), RBool false)
                   | AOk => Some (set_hold (put s a (Some (OLock (MkLk (l_kind l) (Some m) true)))) (incr (s_hold s) m (l_kind l)), RBool true)
                   end
          end
      | _ => None
      end
  (* 439-453, 720-733, 962-976 *)
  | LUnlock a =>
      match get s a with
      | Some (OLock l) =>
          match l_mx l with
          | None => Some (s, RPerm)
          | Some m =>
              if negb (l_own l) then Some (s, RPerm)
              else match mx_unlock m (l_kind l) (s_hold s) with
                   | Some h => Some (set_hold (put s a (Some (OLock (MkLk (l_kind l) (Some m) false)))) h, RUnit)
                   | None => Some (s, RUB)
                   end
          end
      | _ => None
      end
  (* 481-487, 620-626, 918-924 *)
  | LRelease a =>
      match get s a with
      | Some (OLock l) =>
          let s' := put s a (Some (OLock (lk_empty (l_kind l)))) in
          Some (match l_mx l with Some m => if l_own l then set_raw s' (incr (s_raw s) m (l_kind l)) else s' | None => s' end, RUnit)
      | _ => None
      end
  (* upgrade_to_unique_lock(upgrade_lock&) 1062-1065 *)
  | LUpCtor a =>
      match get s a with
      | Some (OLock l) =>
          match l_kind l with
          | KG =>
              match l_own l, w with
              | true, AThrow => Some (s, RMx)
              | _, _ =>
                  match conv_lk KU l (s_hold s) with
                  | Some (l', h) => Some (set_hold (new (put s a (Some (OLock (lk_empty KG)))) (OUp (Some a) l')) h, RUnit)
                  | None => Some (s, RUB)
                  end
              end
          | _ => None
          end
      | _ => None
      end
  (* 1074-1078 *)
  | LUpMove a =>
      match get s a with
      | Some (OUp src l) => Some (new (put s a (Some (OUp None (lk_empty KU)))) (OUp src l), RUnit)
      | _ => None
      end
  (* 1081-1086: a temporary takes b, is swapped with a, and is destroyed *)
  | LUpAssign a b =>
      match get s a, get s b with
      | Some (OUp _ _), Some (OUp srcb lb) =>
          let s1 := put s b (Some (OUp None (lk_empty KU))) in
          match get s1 a with
          | Some (OUp srca la) =>
              let s2 := put s1 a (Some (OUp srcb lb)) in
              match srca with
              | Some i =>
                  match conv_lk KG la (s_hold s2) with
                  | Some (l', h) => assign (set_hold s2 h) i l'
                  | None => Some (s, RUB)
                  end
              | None => match destroy_lk la (s_hold s2) with Some h => Some (set_hold s2 h, RUnit) | None => Some (s, RUB) end
              end
          | _ => None
          end
      | _, _ => None
      end
  (* 1088-1092 *)
  | LUpSwap a b =>
      match get s a, get s b with
      | Some (OUp srca la), Some (OUp srcb lb) => Some (put (put s a (Some (OUp srcb lb))) b (Some (OUp srca la)), RUnit)
      | _, _ => None
      end
  (* lock_guard.hpp:33-37; strict_lock.hpp:45-49; shared_lock_guard.hpp:30-34 *)
  | LGuard k m =>
      match k, w with
      | KG, _ => None
      | _, AThrow => Some (s, RMx)
      | _, _ => Some (set_hold (new s (OGuard k m)) (incr (s_hold s) m k), RUnit)
      end
  (* lock_guard.hpp:39-45; shared_lock_guard.hpp:35-38 *)
  | LGuardAdopt k m =>
      match k with
      | KG => None
      | _ => if s_raw s m k =? 0 then None else Some (set_raw (new s (OGuard k m)) (decr (s_raw s) m k), RUnit)
      end
  (* reverse_lock.hpp:24-32 *)
  | LRev k a =>
      match get s a with
      | Some (OLock l) =>
          if negb (kind_eqb (l_kind l) k) then None else
          match destroy_lk l (s_hold s) with
          | Some h => Some (set_hold (new (put s a (Some (OLock (lk_empty (l_kind l))))) (ORev a (l_mx l))) h, RUnit)
          | None => Some (s, RUB)
          end
      | _ => None
      end
  (* strict_lock.hpp:147-157; without a mutex the precondition check (or, if it is compiled out, lk.lock()) throws a lock_error *)
  | LNest a =>
      match get s a with
      | Some (OLock l) =>
          match l_mx l with
          | None => Some (s, RPerm)
          | Some m =>
              if l_own l then Some (new (put s a (Some (OLock (lk_empty (l_kind l))))) (ONest a l), RUnit)
              else match w with
                   | AThrow => Some (s, RMx)
                   | _ => Some (set_hold (new (put s a (Some (OLock (lk_empty (l_kind l))))) (ONest a (MkLk (l_kind l) (Some m) true)))
                                         (incr (s_hold s) m (l_kind l)), RUnit)
                   end
          end
      | _ => None
      end
  | LDestroy a =>
      if existsb (refers a) (s_objs s) then None
      else
        let s' := put s a None in
        match get s a with
        | None => None
        | Some (OLock l) => match destroy_lk l (s_hold s) with Some h => Some (set_hold s' h, RUnit) | None => Some (s, RUB) end
        | Some (OGuard k m) => match mx_unlock m k (s_hold s) with Some h => Some (set_hold s' h, RUnit) | None => Some (s, RUB) end
        (* lock_types.hpp:1066-1072 *)
        | Some (OUp (Some i) l) =>
            match conv_lk KG l (s_hold s) with
            | Some (l', h) => assign (set_hold s' h) i l'
            | None => Some (s, RUB)
            end
        | Some (OUp None l) => match destroy_lk l (s_hold s) with Some h => Some (set_hold s' h, RUnit) | None => Some (s, RUB) end
        (* reverse_lock.hpp:33-39; an exception of lock() leaves a destructor *)
        | Some (ORev i (Some m)) =>
            match w, get s i with
            | AThrow, _ => Some (s, RTerm)
            | _, Some (OLock old) => assign (set_hold s' (incr (s_hold s) m KU)) i (MkLk (l_kind old) (Some m) true)
            | _, _ => None
            end
        | Some (ORev _ None) => Some (s', RUnit)
        (* strict_lock.hpp:176-179 *)
        | Some (ONest i l) => assign s' i l
        end
  end.

(** A run: operations with the answers of the mutex; it ends when the program is terminated. *)
Fixpoint lrun (s : lstate) (ops : list (lop * ans)) : option lstate :=
  match ops with
  | [] => Some s
  | (op, w) :: ops' =>
      match lstep s op w with
      | Some (s', RTerm) => None
      | Some (s', _) => lrun s' ops'
      | None => None
      end
  end.
