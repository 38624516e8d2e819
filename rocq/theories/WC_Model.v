(** * Model of the Windows condition variables

    Source: include/boost/thread/win32/condition_variable.hpp:45-321 (basic_condition_variable, the base of condition_variable and condition_variable_any).

    A waiting thread joins the last generation (basic_cv_list_entry) if that has not been notified, or else starts a new one.  Every generation has a semaphore of its own, and shares
    with the others the semaphore wake_sem of its time; notify_all replaces wake_sem.  Generations and wake_sems are numbered in the order of their creation.
    A waiting thread [KSem]s (waits for the semaphore of its generation [g]) and [KChk]s (tries to take one from the wake_sem [p] of its generation) in turn.
    [log] records, newest first, when threads begin to wait (from then on they count as waiting, although they release the user's mutex only afterwards), when notify_one and notify_all
    are called, and when waiting threads have taken from wake_sem and are going to return.
    Simplifications: critical sections of internal_mutex are one step (in them only semaphores are released that nobody else releases or reads, so that the order of these
    releases cannot be observed); the user's mutex is not represented: locking it again after the wait is up to C73, C74; wake_sem, created on first use, always exists;
    semaphores do not reach LONG_MAX.  A timed wait may time out, and any wait be interrupted, whenever the thread waits for the semaphore (win32/thread_data.hpp:
    interruptible_wait). *)
From Verif Require Import Monitor.
Set Implicit Arguments.

(** basic_cv_list_entry 45-60: semaphore, waiters, notified, wake_sem *)
Record entry := MkE { sem : nat; wtr : nat; ntf : bool; ep : nat }.
Inductive act := AReg (t : nat) | AOne | AAll | AWoke (t : nat).
(** basic_condition_variable 120-134: total_count, generations (numbers, oldest first), the number of the current wake_sem; [ne]: the number of generations made so far;
    [wk]: the counts of the wake_sems *)
Record cv := MkC { tot : nat; ne : nat; ent : nat -> entry; live : list nat; cur : nat; wk : nat -> nat; log : list act }.
Definition cv0 : cv := MkC 0 0 (fun _ => MkE 0 0 false 0) [] 0 (fun _ => 0) [].

Inductive cop := OWait (timed : bool) | OOne | OAll.
Inductive cres := ROk | RWoken | RTimeout | RInterrupted.
Inductive ck :=
| KStart (op : cop)
| KSem (timed : bool) (g p : nat)      (* interruptible_wait *)
| KChk (timed : bool) (g p : nat)      (* woken *)
| KRem (g : nat) (r : cres)            (* remove_waiter_and_reset, on return or by the destructor of entry_manager *)
| KOne | KAll.                         (* notify_one, notify_all after the first look at total_count *)

Notation cout := (cv * list (notif nat) * outcome ck nat cres)%type.
Definition setf {A} (f : nat -> A) (i : nat) (x : A) : nat -> A := fun j => if j =? i then x else f j.
Definition set_ent g e s := MkC (tot s) (ne s) (setf (ent s) g e) (live s) (cur s) (wk s) (log s).
Definition say a s := MkC (tot s) (ne s) (ent s) (live s) (cur s) (wk s) (a :: log s).
(** release 77-81 *)
Definition release (k : nat) (e : entry) : entry := MkE (sem e + k) (wtr e) true (ep e).
Definition inb (g : nat) (l : list nat) : bool := existsb (Nat.eqb g) l.

(** get_wait_entry 175-195 *)
Definition get_wait_entry (t : nat) (tm : bool) (s : cv) : cout :=
  match rev (live s) with
  | g :: _ =>
      if ntf (ent s g) then
        (MkC (S (tot s)) (S (ne s)) (setf (ent s) (ne s) (MkE 0 1 false (cur s))) (live s ++ [ne s]) (cur s) (wk s) (AReg t :: log s), [], OYield nat cres (KSem tm (ne s) (cur s)))
      else let e := ent s g in
        (MkC (S (tot s)) (ne s) (setf (ent s) g (MkE (sem e) (S (wtr e)) (ntf e) (ep e))) (live s) (cur s) (wk s) (AReg t :: log s), [], OYield nat cres (KSem tm g (ep e)))
  | [] => (MkC (S (tot s)) (S (ne s)) (setf (ent s) (ne s) (MkE 0 1 false (cur s))) [ne s] (cur s) (wk s) (AReg t :: log s), [], OYield nat cres (KSem tm (ne s) (cur s)))
  end.

Definition cfrag (t : nat) (_ : unit) (k : ck) (s : cv) : cout :=
  match k with
  (* do_wait_until 256-276 *)
  | KStart (OWait tm) => get_wait_entry t tm s
  | KSem tm g p => let e := ent s g in
      match sem e with
      | S n => (set_ent g (MkE n (wtr e) (ntf e) (ep e)) s, [], OYield nat cres (KChk tm g p))
      | 0 => (s, [], OSleep cres g k)
      end
  | KChk tm g p =>
      match wk s p with
      | S n => (MkC (tot s) (ne s) (ent s) (live s) (cur s) (setf (wk s) p n) (AWoke t :: log s), [], OYield nat cres (KRem g RWoken))
      | 0 => (s, [], OYield nat cres (KSem tm g p))
      end
  | KRem g r => let e := ent s g in (set_ent g (MkE (sem e) (wtr e - 1) (ntf e) (ep e)) s, [], ORet ck nat r)
  (* notify_one 278-297, wake_waiters 136-140 *)
  | KStart OOne => if tot s =? 0 then (say AOne s, [], ORet ck nat ROk) else (s, [], OYield nat cres KOne)
  | KOne =>
      if tot s =? 0 then (say AOne s, [], ORet ck nat ROk)
      else let ent' := fun g => if inb g (live s) then release 1 (ent s g) else ent s g in
        (MkC (tot s - 1) (ne s) ent' (filter (fun g => negb (wtr (ent s g) =? 0)) (live s)) (cur s) (setf (wk s) (cur s) (S (wk s (cur s)))) (AOne :: log s),
         map (@NAll nat) (live s), ORet ck nat ROk)
  (* notify_all 299-318, release_waiters 83-86 *)
  | KStart OAll => if tot s =? 0 then (say AAll s, [], ORet ck nat ROk) else (s, [], OYield nat cres KAll)
  | KAll =>
      if tot s =? 0 then (say AAll s, [], ORet ck nat ROk)
      else let ent' := fun g => if inb g (live s) then release (wtr (ent s g)) (ent s g) else ent s g in
        (MkC 0 (ne s) ent' [] (S (cur s)) (setf (wk s) (cur s) (wk s (cur s) + tot s)) (AAll :: log s), map (@NAll nat) (live s), ORet ck nat ROk)
  end.

Definition c_timeout (k : ck) : option ck := match k with KSem true g _ => Some (KRem g RTimeout) | _ => None end.
Definition c_intr (k : ck) : option ck := match k with KSem _ g _ => Some (KRem g RInterrupted) | _ => None end.
Definition wcprog : prog cv ck cop cres nat unit unit := MkProg Nat.eqb KStart cfrag c_timeout c_intr (fun _ _ => true) (fun l _ _ => l).
