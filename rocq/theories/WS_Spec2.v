(** * The Windows shared_mutex: specification of what a waiting writer does to others *)
From Verif Require Export WS_Spec.
Set Implicit Arguments.

(** s' is reached from s by steps of thread j only *)
Inductive alone (j : nat) : sys -> sys -> Prop :=
| a_here s : alone j s s
| a_step s s1 s' : alone j s s1 -> exec s1 (LRun j) = Some s' -> alone j s s'.
(** A call that may give a lock that other readers may hold at the same time *)
Definition for_reading (o : op) : bool := match o with LockShared | TryLockShared | TimedLockShared | LockUpgrade | TryLockUpgrade => true | _ => false end.
