(** * Model of testable_mutex

    Source: include/boost/thread/testable_mutex.hpp: lock 49-54, unlock 56-61, try_lock 63-75, try_lock_for 78-90, try_lock_until 92-104, is_locked_by_this_thread 107-110,
    is_locked 111-114, get_id 116-119.

    Any number of threads.  The wrapped mutex [own] is the abstract mutex (its implementations: MX_Model.v); [id] is the atomic thread id.
    Simplifications: a thread calls lock functions only when it does not own the mutex and unlock only when it does (the BOOST_ASSERTs); the ids of different threads differ;
    one testable_mutex. *)
From Coq Require Export List Arith Lia Bool.
Export ListNotations.
Set Implicit Arguments.

(** [TWait tm]: in mtx_.lock() ([tm]: in a try or timed function); [TGot]: mtx_ is owned, id_ not stored yet; [TCleared]: id_ is reset, mtx_ still owned *)
Inductive pc := TIdle | TWait (tm : bool) | TGot (tm : bool) | THold | TCleared.

Inductive event :=
| ECall (t : nat)                    (* lock, try_lock, try_lock_for, try_lock_until is called *)
| ELocked (t : nat)                  (* it returns, owning the mutex *)
| EFailed (t : nat)                  (* it returns false *)
| EUnlock (t : nat)                  (* unlock is called *)
| EUnlocked (t : nat)                (* it returns *)
| EMine (t : nat) (b : bool)         (* is_locked_by_this_thread returns b *)
| EIs (t : nat) (b : bool)           (* is_locked returns b *)
| EGet (t : nat) (o : option nat).   (* get_id returns the id of a thread, or of none *)

Record tk := MkT { own : option nat; id : option nat; pcs : list pc; hist : list event }.
Definition tk0 (n : nat) : tk := MkT None None (repeat TIdle n) [].

Fixpoint upd {A} (l : list A) (i : nat) (x : A) : list A :=
  match l, i with
  | [], _ => []
  | _ :: l', 0 => x :: l'
  | y :: l', S i' => y :: upd l' i' x
  end.

(** [LCall]: a lock function is called; [LTake]: mtx_ is acquired; [LFail]: mtx_.try_lock, try_lock_for, try_lock_until fails (52, 66, 81, 95);
    [LStore]: id_ = get_id() (53, 68, 83, 97); [LUnlock]: unlock is called; 59; [LRelease]: 60; the queries *)
Inductive label := LCall (t : nat) (tm : bool) | LTake (t : nat) | LFail (t : nat) | LStore (t : nat) | LUnlock (t : nat) | LRelease (t : nat)
| LMine (t : nat) | LIs (t : nat) | LGetId (t : nat).

Definition eqo (a b : option nat) : bool :=
  match a, b with Some x, Some y => x =? y | None, None => true | _, _ => false end.
Definition outside (p : pc) : bool := match p with TIdle | THold => true | _ => false end.

Definition exec (s : tk) (l : label) : option tk :=
  match l with
  | LCall t tm => match nth_error (pcs s) t with
                  | Some TIdle => Some (MkT (own s) (id s) (upd (pcs s) t (TWait tm)) (ECall t :: hist s))
                  | _ => None end
  | LTake t => match nth_error (pcs s) t, own s with
               | Some (TWait tm), None => Some (MkT (Some t) (id s) (upd (pcs s) t (TGot tm)) (hist s))
               | _, _ => None end
  | LFail t => match nth_error (pcs s) t with
               | Some (TWait true) => Some (MkT (own s) (id s) (upd (pcs s) t TIdle) (EFailed t :: hist s))
               | _ => None end
  | LStore t => match nth_error (pcs s) t with
                | Some (TGot _) => Some (MkT (own s) (Some t) (upd (pcs s) t THold) (ELocked t :: hist s))
                | _ => None end
  | LUnlock t => match nth_error (pcs s) t with
                 | Some THold => Some (MkT (own s) None (upd (pcs s) t TCleared) (EUnlock t :: hist s))
                 | _ => None end
  | LRelease t => match nth_error (pcs s) t with
                  | Some TCleared => Some (MkT None (id s) (upd (pcs s) t TIdle) (EUnlocked t :: hist s))
                  | _ => None end
  | LMine t => match nth_error (pcs s) t with
               | Some p => if outside p then Some (MkT (own s) (id s) (pcs s) (EMine t (eqo (Some t) (id s)) :: hist s)) else None
               | None => None end
  | LIs t => match nth_error (pcs s) t with
             | Some p => if outside p then Some (MkT (own s) (id s) (pcs s) (EIs t (negb (eqo None (id s))) :: hist s)) else None
             | None => None end
  | LGetId t => match nth_error (pcs s) t with
                | Some p => if outside p then Some (MkT (own s) (id s) (pcs s) (EGet t (id s) :: hist s)) else None
                | None => None end
  end.

Fixpoint runl (s : tk) (ls : list label) : option tk :=
  match ls with
  | [] => Some s
  | l :: ls' => match exec s l with Some s' => runl s' ls' | None => None end
  end.
Definition reach (n : nat) (s : tk) : Prop := exists ls, runl (tk0 n) ls = Some s.
