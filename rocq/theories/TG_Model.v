(** * Model of thread_group

    Source: include/boost/thread/detail/thread_group.hpp:23-146.

    Thread objects are numbered.  A thread object has an id as long as it has not been joined ([att]); objects that have been joined all have the id of no thread.
    The shared_mutex [m] is represented by the number of threads that hold it shared across several steps (only join_all does) and by the flag that a waiting writer
    sets to keep new readers out (pthread/shared_mutex.hpp, the subject of SM_Model.v); every other critical section is one step.
    Simplifications: thread objects are not detached, moved or joined outside the group; join is not interrupted; interrupt_all is in GI_Model.v; the death
    of thread [p] is the operation [OEnd p]; the thread objects that create_thread makes are chosen by the caller, who must not choose one twice ([used]). *)
From Verif Require Import Monitor.
Set Implicit Arguments.

Record tg := MkT { grp : list nat; att : nat -> bool; ended : nat -> bool; used : list nat; nsh : nat; xw : bool }.
Definition tg0 : tg := MkT [] (fun _ => true) (fun _ => false) [] 0 false.

Inductive gop :=
| OAdd (p : nat) | OCreate (p : nat) | ORemove (p : nat) | OIsIn (p : nat) | OSize
| OJoinAll (self : option nat)        (* [self]: the thread object of the calling thread *)
| OEnd (p : nat)
| ODestroy.                           (* ~thread_group *)
Inductive gres := ROk | RDup | RSelf | RUsed | RBool (b : bool) | RNum (k : nat).
(** [CM]: the mutex; [CE]: a thread's end *)
Inductive gcv := CM | CE.
Definition gcv_eqb (a b : gcv) : bool := match a, b with CM, CM | CE, CE => true | _, _ => false end.
Inductive gk :=
| KStart (op : gop)
| KAdd (p : nat)                      (* add_thread after is_thread_in *)
| KJoinLock (self : option nat)       (* join_all after is_this_thread_in *)
| KJoin (self : option nat) (l : list nat).   (* in the loop of join_all: the rest of the list *)

Notation gout := (tg * list (notif gcv) * outcome gk gcv gres)%type.
Notation ret r := (ORet gk gcv r).
Notation yield k := (OYield gcv gres k).
Notation sleep v k := (OSleep gres v k).

Definition mem (i : nat) (l : list nat) : bool := existsb (Nat.eqb i) l.
Definition fupd {A} (g : nat -> A) (i : nat) (x : A) : nat -> A := fun j => if j =? i then x else g j.
(** get_id: the id of object [p]; 0 is the id of no thread *)
Definition id_of (s : tg) (p : nat) : nat := if att s p then S p else 0.
Definition has_id (s : tg) (i : nat) : bool := existsb (fun q => id_of s q =? i) (grp s).
(** std::find and erase: 102-106 *)
Fixpoint remove1 (p : nat) (l : list nat) : list nat := match l with [] => [] | q :: l' => if q =? p then l' else q :: remove1 p l' end.
Fixpoint nodup (l : list nat) : bool := match l with [] => true | p :: l' => negb (mem p l') && nodup l' end.

Definition push (p : nat) (s : tg) : tg := MkT (grp s ++ [p]) (att s) (ended s) (p :: used s) (nsh s) (xw s).
Definition set_xw (b : bool) (s : tg) : tg := MkT (grp s) (att s) (ended s) (used s) (nsh s) b.
(** unlock_shared *)
Definition unlock_sh (s : tg) : tg * list (notif gcv) :=
  let s1 := MkT (grp s) (att s) (ended s) (used s) (pred (nsh s)) (xw s) in
  if nsh s1 =? 0 then (set_xw false s1, [NAll CM]) else (s1, []).

Section Frag.
  Variable k : gk.
  (** an exclusive section: [f] gives the new state and the result; the thread comes back to [k] when it must wait *)
  Definition excl (s : tg) (f : tg -> tg * gres) : gout :=
    if nsh s =? 0 then let '(s', r) := f s in (s', [], ret r) else (set_xw true s, [], sleep CM k).
  (** a shared section of one step *)
  Definition shrd (s : tg) (f : gout) : gout := if xw s then (s, [], sleep CM k) else f.
End Frag.

Definition gfrag (_ : nat) (_ : unit) (k : gk) (s : tg) : gout :=
  match k with
  (* 85-96 *)
  | KStart (OAdd p) => shrd k s (if has_id s (id_of s p) then (s, [], ret RDup) else (MkT (grp s) (att s) (ended s) (p :: used s) (nsh s) (xw s), [], yield (KAdd p)))
  | KAdd p => excl k s (fun s => (push p s, ROk))
  (* 76-83 *)
  | KStart (OCreate p) => excl k s (fun s => if mem p (used s) then (s, RUsed) else (push p s, ROk))
  (* 98-107 *)
  | KStart (ORemove p) => excl k s (fun s => (MkT (remove1 p (grp s)) (att s) (ended s) (used s) (nsh s) (xw s), ROk))
  (* 54-73 *)
  | KStart (OIsIn p) => shrd k s (s, [], ret (RBool (has_id s (id_of s p))))
  (* 136-140 *)
  | KStart OSize => shrd k s (s, [], ret (RNum (length (grp s))))
  (* 109-122 *)
  | KStart (OJoinAll self) =>
      shrd k s (match self with Some p => if has_id s (S p) then (s, [], ret RSelf) else (s, [], yield (KJoinLock self)) | None => (s, [], yield (KJoinLock self)) end)
  | KJoinLock self => shrd k s (MkT (grp s) (att s) (ended s) (used s) (S (nsh s)) (xw s), [], yield (KJoin self (grp s)))
  | KJoin self [] => let '(s', ns) := unlock_sh s in (s', ns, ret ROk)
  | KJoin self (p :: l) =>
      if negb (att s p) then (s, [], yield (KJoin self l))
      else if match self with Some q => q =? p | None => false end then let '(s', ns) := unlock_sh s in (s', ns, ret RSelf)   (* thread::join on itself throws *)
      else if ended s p then (MkT (grp s) (fupd (att s) p false) (ended s) (used s) (nsh s) (xw s), [], yield (KJoin self l))
      else (s, [], sleep CE k)
  | KStart (OEnd p) => (MkT (grp s) (att s) (fupd (ended s) p true) (used s) (nsh s) (xw s), [NAll CE], ret ROk)
  (* 30-38: deletes every element *)
  | KStart ODestroy => if nodup (grp s) then (s, [], ret ROk) else (s, [], OUB gk gcv gres)
  end.

Definition tgprog : prog tg gk gop gres gcv unit unit :=
  MkProg gcv_eqb KStart gfrag (fun _ => None) (fun _ => None) (fun _ _ => true) (fun l _ _ => l).
