(** * Model of synchronized_value

    Source: include/boost/thread/synchronized_value.hpp:391-926 (get 517-521, assignment 490-513, copy and move
    construction 463-477, swap 576-597, operator() 626-652, save/load 820-834, relational operators 841-926).
    Any number of threads perform any sequences of operations on any number of objects; object [i] has mutex [i] and a
    value (a number).  The locks are taken with boost::lock (LA_Model, two objects) or by a constructor that calls
    lock() (one object); the value is then read and written in several steps, which interleave with the steps of other
    threads; then the locks are released one by one.
    Simplifications: the copy and move constructors read the other object like get() (the new object is not shared
    yet); save, load and the comparisons with a T are instances of [OApply]; operations on values do not throw; a call of
    lock() or try_lock() of the mutex may throw, and the operation then throws and does nothing. *)

From Verif Require Export LA_Model LA_Sys.
Set Implicit Arguments.

Inductive vop :=
| OGet (i : nat)
| OSet (i : nat) (v : nat)
| OSwapT (i : nat) (v : nat)                      (* swap(T&); the result is what the T becomes *)
| OApply (i : nat) (f : nat -> nat * nat)         (* operator(): new value and result *)
| OAssign (i j : nat)                             (* i = j *)
| OSwap (i j : nat)
| OCmp (f : nat -> nat -> bool) (i j : nat).      (* ==, <, >, <=, >= *)

Inductive vres := VUnit | VNat (n : nat) | VBool (b : bool).

(** The locking call: 519 strict_lock; 494-497, 581-584 with the tests 492 and 577; 843-845 without one *)
Definition lock_of (op : vop) : call :=
  match op with
  | OGet i | OSet i _ | OSwapT i _ | OApply i _ => CLock [i]
  | OAssign i j | OSwap i j => if i =? j then CRange [] else CLock [i; j]
  | OCmp _ i j => CLock [i; j]
  end.

Definition vals := nat -> nat.
Definition write (s : vals) (i v : nat) : vals := fun x => if i =? x then v else s x.

(** Progress through the critical section: the values read so far. *)
Inductive body := B0 | B1 (t1 : nat) | B2 (t1 t2 : nat) | B3 (t1 : nat).
Inductive bres := More (b : body) | Done (r : vres).

(** One step of the critical section. *)
Definition bstep (op : vop) (b : body) (s : vals) : bres * vals :=
  match op, b with
  | OGet i, _ => (Done (VNat (s i)), s)
  | OSet i v, _ => (Done VUnit, write s i v)
  | OSwapT i v, B0 => (More (B1 (s i)), s)
  | OSwapT i v, B1 t => (Done (VNat t), write s i v)
  | OApply i f, B0 => (More (B1 (s i)), s)
  | OApply i f, B1 t => (Done (VNat (snd (f t))), write s i (fst (f t)))
  | OAssign i j, B0 => if i =? j then (Done VUnit, s) else (More (B1 (s j)), s)
  | OAssign i j, B1 t => (Done VUnit, write s i t)
  (* tmp = a; a = b; b = tmp *)
  | OSwap i j, B0 => if i =? j then (Done VUnit, s) else (More (B1 (s i)), s)
  | OSwap i j, B1 t1 => (More (B2 t1 (s j)), s)
  | OSwap i j, B2 t1 t2 => (More (B3 t1), write s i t2)
  | OSwap i j, B3 t1 => (Done VUnit, write s j t1)
  | OCmp f i j, B0 => (More (B1 (s i)), s)
  | OCmp f i j, B1 t1 => (Done (VBool (f t1 (s j))), s)
  | _, _ => (Done VUnit, s)
  end.

Inductive vthread :=
| VIdle (todo : list vop)
| VLock (op : vop) (h : list ans) (todo : list vop)
| VBody (op : vop) (b : body) (todo : list vop)
| VUnlock (op : vop) (r : vres) (ms : list nat) (todo : list vop).

(** call, end of the critical section, return, exception *)
Inductive vevent := VCall (t : nat) (op : vop) | VCommit (t : nat) (op : vop) (r : vres) | VRet (t : nat) (op : vop) (r : vres) | VExn (t : nat) (op : vop).

Record vsys := MkV { v_own : nat -> option nat; v_val : vals; v_thr : list vthread; v_hist : list vevent (* newest first *) }.

Fixpoint vset (l : list vthread) (i : nat) (x : vthread) : list vthread :=
  match l, i with
  | [], _ => []
  | _ :: l', 0 => x :: l'
  | y :: l', S i' => y :: vset l' i' x
  end.

Inductive vstep : vsys -> vsys -> Prop :=
| vs_call s t op cs : nth_error (v_thr s) t = Some (VIdle (op :: cs)) ->
    vstep s (MkV (v_own s) (v_val s) (vset (v_thr s) t (VLock op [] cs)) (VCall t op :: v_hist s))
| vs_act s t op h cs a tr x o' : nth_error (v_thr s) t = Some (VLock op h cs) -> run_lock (lock_of op) h = Pend a tr ->
    answers (v_own s) t a x o' ->
    vstep s (MkV o' (v_val s) (vset (v_thr s) t (VLock op (h ++ [x]) cs)) (v_hist s))
| vs_locked s t op h cs h' tr : nth_error (v_thr s) t = Some (VLock op h cs) -> run_lock (lock_of op) h = Val tt h' tr ->
    vstep s (MkV (v_own s) (v_val s) (vset (v_thr s) t (VBody op B0 cs)) (v_hist s))
| vs_exn s t op h cs h' tr : nth_error (v_thr s) t = Some (VLock op h cs) -> run_lock (lock_of op) h = Exn h' tr ->
    vstep s (MkV (v_own s) (v_val s) (vset (v_thr s) t (VIdle cs)) (VExn t op :: v_hist s))
| vs_body s t op b cs b' v' : nth_error (v_thr s) t = Some (VBody op b cs) -> bstep op b (v_val s) = (More b', v') ->
    vstep s (MkV (v_own s) v' (vset (v_thr s) t (VBody op b' cs)) (v_hist s))
| vs_commit s t op b cs r v' : nth_error (v_thr s) t = Some (VBody op b cs) -> bstep op b (v_val s) = (Done r, v') ->
    vstep s (MkV (v_own s) v' (vset (v_thr s) t (VUnlock op r (rev (args (lock_of op))) cs)) (VCommit t op r :: v_hist s))
| vs_unlock s t op r m ms cs : nth_error (v_thr s) t = Some (VUnlock op r (m :: ms) cs) ->
    vstep s (MkV (set_owner (v_own s) m None) (v_val s) (vset (v_thr s) t (VUnlock op r ms cs)) (v_hist s))
| vs_ret s t op r cs : nth_error (v_thr s) t = Some (VUnlock op r [] cs) ->
    vstep s (MkV (v_own s) (v_val s) (vset (v_thr s) t (VIdle cs)) (VRet t op r :: v_hist s)).

Inductive vreach (init : vals) (todos : list (list vop)) : vsys -> Prop :=
| vr_init : vreach init todos (MkV (fun _ => None) init (map VIdle todos) [])
| vr_step s s' : vreach init todos s -> vstep s s' -> vreach init todos s'.
