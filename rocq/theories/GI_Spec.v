(** * What programs rely on for thread_group::interrupt_all

    The history is newest first. *)
From Verif Require Import GI_Model.

(** When interrupt_all returns, it has requested the interruption of all threads that were in the group when it was called and have not been removed since. *)
Definition interrupts_all (h : list ev) : Prop :=
  forall later t before, h = later ++ IRet t :: before ->
    exists during old, before = during ++ ICall t :: old /\ ~ In (ICall t) during /\
      forall m, In (ECreate m) old -> ~ In (ERemove m) before -> In (IReq t m) during.
(** It requests only that of members. *)
Definition interrupts_members (h : list ev) : Prop :=
  forall later t m before, h = later ++ IReq t m :: before -> In (ECreate m) before /\ ~ In (ERemove m) before.
(** When join_all returns, all threads have ended that were in the group when it was called and have not been removed since. *)
Definition joins_all (h : list ev) : Prop :=
  forall later t before, h = later ++ JRet t :: before ->
    exists during old, before = during ++ JCall t :: old /\ ~ In (JCall t) during /\
      forall m, In (ECreate m) old -> ~ In (ERemove m) before -> In (EEnd m) before.
Definition in_interrupt_all (p : pcs) : Prop := match p with PIW | PInt _ => True | _ => False end.
Definition in_writer (p : pcs) : Prop := match p with PWr _ => True | _ => False end.
(** A call can take its next step; something can happen without a new call. *)
Definition can_go (patient : nat -> bool) (s : st) (t : nat) : Prop := exists s', go patient s s' /\ pc s' t <> pc s t.
Definition alive (patient : nat -> bool) (s : st) : Prop := exists s', go patient s s'.
(** interrupt_all does not access a thread object (in interrupt()) that join_all is about to change (join() empties it when the thread has ended). *)
Definition no_clash (s : st) : Prop :=
  forall t u m l l', pc s t = PInt (m :: l) -> pc s u = PJoin (m :: l') -> ~ In (EEnd m) (log s).
