(** * C63: thread_group *)
From Verif Require Import MonitorLemmas TG_Model TG_Spec TG_Proofs.
Set Implicit Arguments.

(** C63, for all schedules and any number of threads.  [members h] lists what the calls completed in [h] have put in and not taken out, in order.
    size() returns its length; is_thread_in is true for members, and only for them as long as join_all has not been called; add_thread adds, or refuses and leaves
    the group as it was; as long as join_all has not been called it refuses only members;
    a call of join_all that returns normally returns after every thread that is in the group at that moment has ended;
    it refuses only when the calling thread is itself in the group. *)
Theorem thread_group_partial : forall n c, reachable tgprog n tg0 tt c ->
  (forall h1 t r h0, hist c = h1 ++ EDone t OSize r :: h0 -> r = RNum (length (members h0))) /\
  (forall h1 t p r h0, hist c = h1 ++ EDone t (OIsIn p) r :: h0 -> exists b, r = RBool b /\ (In p (members h0) -> b = true) /\ (no_join h0 -> b = true -> In p (members h0))) /\
  (forall h1 t p r h0, hist c = h1 ++ EDone t (OAdd p) r :: h0 ->
     r = ROk /\ members (EDone t (OAdd p) r :: h0) = members h0 ++ [p] \/ r = RDup /\ members (EDone t (OAdd p) r :: h0) = members h0 /\ (no_join h0 -> In p (members h0))) /\
  (forall h1 t self r h0, hist c = h1 ++ EDone t (OJoinAll self) r :: h0 -> (r = RSelf /\ exists p, self = Some p /\ In p (members h0)) \/ r = ROk /\ forall p, In p (members h0) -> has_ended h0 p).
Proof.
  intros n c Hr. split; [|split; [|split]]; intros.
  - destruct (event_ok _ _ _ _ _ Hr H) as (s & s' & E & Hev & _). cbn in Hev. rewrite <- E. tauto.
  - destruct (event_ok _ _ _ _ _ Hr H) as (s & s' & E & (_ & ->) & _ & Hj). eexists. split; [reflexivity|]. rewrite <- E. split; [apply has_id_self|].
    intros Hn Hb. unfold id_of in Hb. rewrite (Hj Hn) in Hb. now apply has_id_In.
  - destruct (event_ok _ _ _ _ _ Hr H) as (s & s' & E & [[-> _]|(-> & _ & Hb)] & _ & Hj); [left|right]; auto. split; auto. split; auto. intros Hn. rewrite <- E.
    unfold id_of in Hb. rewrite (Hj Hn) in Hb. now apply has_id_In.
  - destruct (event_ok _ _ _ _ _ Hr H) as (s & s' & E & (_ & [->|[-> Hs]] & Hall) & He & _); [right|left; split; auto; now rewrite <- E]. split; auto. intros p Hp. apply He, Hall; auto. now rewrite E.
Qed.
Print Assumptions thread_group_partial.

(** C63: if only one thread calls add_thread (create_thread, remove_thread, join_all and the queries may be called by any), no thread is ever in the group twice, and
    destroying the group deletes each object once. *)
Theorem thread_group_once_partial : forall n c, reachable tgprog n tg0 tt c -> one_adder (hist c) ->
  NoDup (members (hist c)) /\ ~ In (Crashed gk gop gcv unit) (thr c).
Proof. intros n c Hr H. destruct (Inv2_reachable Hr) as [HI _ _ Ho]. destruct (Ho H) as (A & _ & B). rewrite <- (v_grp HI). auto. Qed.
Print Assumptions thread_group_once_partial.

(** C63: once no thread can take a step and every member has ended, no call on the group is left waiting. *)
Theorem thread_group_no_hang_partial : forall n c, reachable tgprog n tg0 tt c -> quiescent c -> (forall p, In p (members (hist c)) -> has_ended (hist c) p) ->
  forall t l op cv k, nth_error (thr c) t <> Some (Asleep l op cv k).
Proof. intros n c. apply rest. Qed.
Print Assumptions thread_group_no_hang_partial.

Definition cl_ (t : nat) (op : gop) : label gop unit := LCall unit t op.
Definition r_ (t : nat) : label gop unit := LRun gop t [] tt.
Ltac witness n ls := let c := fresh "c" in let E := fresh "E" in
  destruct (run tgprog (init gk gop gres gcv n tg0 tt) ls) as [c|] eqn:E; [|vm_compute in E; discriminate]; exists c; split; [exists ls; exact E|]; vm_compute in E; injection E as <-.

(** C63 in full is false.
    (1) Two concurrent add_thread of one thread: both succeed, size() is 2, and the destructor deletes the object twice.
    (2) A thread that is not in the group is refused, because both it and some member have been joined (the id of no thread).
    (3) join_all holds the lock while it waits: a member (thread 7) that calls create_thread waits for join_all, which waits for the member. *)
Theorem thread_group_refuted :
  (exists c, reachable tgprog 2 tg0 tt c /\ members (hist c) = [7; 7] /\ In (EDone 0 OSize (RNum 2)) (hist c) /\ nth_error (thr c) 0 = Some (Crashed gk gop gcv unit)) /\
  (exists c, reachable tgprog 1 tg0 tt c /\ exists h, hist c = EDone 0 (OAdd 8) RDup :: h /\ ~ In 8 (members h)) /\
  (exists c, reachable tgprog 2 tg0 tt c /\ quiescent c /\ members (hist c) = [7] /\
     (exists l k, nth_error (thr c) 0 = Some (Asleep l (OJoinAll None) CE k)) /\ (exists l k, nth_error (thr c) 1 = Some (Asleep l (OCreate 8) CM k))).
Proof.
  split; [|split].
  - witness 2 [cl_ 0 (OAdd 7); cl_ 1 (OAdd 7); r_ 0; r_ 1; r_ 0; r_ 1; cl_ 0 OSize; r_ 0; cl_ 0 ODestroy; r_ 0].
    split; [reflexivity|]. split; [cbn; auto|reflexivity].
  - witness 1 [cl_ 0 (OAdd 7); r_ 0; r_ 0; cl_ 0 (OAdd 8); r_ 0; r_ 0; cl_ 0 (OEnd 7); r_ 0; cl_ 0 (OEnd 8); r_ 0; cl_ 0 (OJoinAll None); r_ 0; r_ 0; r_ 0; r_ 0; r_ 0; cl_ 0 (ORemove 8); r_ 0; cl_ 0 (OAdd 8); r_ 0].
    eexists. split; [reflexivity|]. cbn. intros [H|[]]. discriminate.
  - witness 2 [cl_ 0 (OAdd 7); r_ 0; r_ 0; cl_ 0 (OJoinAll None); r_ 0; r_ 0; r_ 0; cl_ 1 (OCreate 8); r_ 1].
    split; [reflexivity|]. split; [reflexivity|]. split; eexists; eexists; reflexivity.
Qed.
Print Assumptions thread_group_refuted.

(** non-vacuity: one adder, a creator, join_all waits for both and returns; the group is destroyed *)
Example thread_group_example : exists c, reachable tgprog 2 tg0 tt c /\ quiescent c /\ one_adder (hist c) /\ members (hist c) = [7; 8] /\
  (forall p, In p (members (hist c)) -> has_ended (hist c) p) /\ In (EDone 0 (OJoinAll (Some 3)) ROk) (hist c) /\ In (EDone 0 ODestroy ROk) (hist c) /\ In (EDone 0 (OAdd 7) RDup) (hist c).
Proof.
  witness 2 [cl_ 0 (OAdd 7); r_ 0; r_ 0; cl_ 1 (OCreate 8); r_ 1; cl_ 0 (OAdd 7); r_ 0; cl_ 0 (OJoinAll (Some 3)); r_ 0; r_ 0; r_ 0; cl_ 1 (OEnd 7); r_ 1; r_ 0; cl_ 1 (OEnd 8); r_ 1; r_ 0; r_ 0;
    cl_ 0 ODestroy; r_ 0].
  split; [reflexivity|]. split.
  { intros t p H. cbn in H. repeat (destruct H as [H|H]; [first [discriminate H|injection H; auto]|]). destruct H. }
  split; [reflexivity|]. split.
  { intros p [<-|[<-|[]]]; exists 1; cbn; tauto. }
  cbn; tauto.
Qed.
