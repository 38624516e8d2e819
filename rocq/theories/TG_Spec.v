(** * Specification of thread_group: what the completed calls have put in the group *)
From Verif Require Import Monitor TG_Model.
Set Implicit Arguments.
Notation tgconf := (cfg tg gk gop gres gcv unit).
Notation gevent := (event gop gres).

(** the list without the first occurrence of [p] *)
Fixpoint erase_first (p : nat) (l : list nat) : list nat :=
  match l with [] => [] | x :: l' => if Nat.eq_dec x p then l' else x :: erase_first p l' end.
(** the members, in the order they were added, after the completed calls [h] (newest first) *)
Fixpoint members (h : list gevent) : list nat :=
  match h with
  | [] => []
  | EDone _ (OAdd p) ROk :: h' | EDone _ (OCreate p) ROk :: h' => members h' ++ [p]
  | EDone _ (ORemove p) _ :: h' => erase_first p (members h')
  | _ :: h' => members h'
  end.
Definition has_ended (h : list gevent) (p : nat) : Prop := exists t, In (EDone t (OEnd p) ROk) h.
(** no call of join_all has begun *)
Definition no_join (h : list gevent) : Prop := forall t self, ~ In (ECall gres t (OJoinAll self)) h.
(** add_thread is called by thread 0 only *)
Definition one_adder (h : list gevent) : Prop := forall t p, In (ECall gres t (OAdd p)) h -> t = 0.
