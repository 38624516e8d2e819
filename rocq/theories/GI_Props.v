(** * C161: thread_group::interrupt_all *)
From Verif Require Import GI_Model GI_Spec GI_Proofs.

(** interrupt_all requests the interruption of every thread of the group. *)
Theorem C161_interrupts_all : forall patient s, reach patient s -> interrupts_all (log s).
Proof. exact all_interrupted. Qed.
Print Assumptions C161_interrupts_all.

(** It requests the interruption of no other thread. *)
Theorem C161_interrupts_members : forall patient s, reach patient s -> interrupts_members (log s).
Proof. exact members_only. Qed.
Print Assumptions C161_interrupts_members.

(** join_all returns when all threads of the group have ended, also beside interrupt_all. *)
Theorem C161_joins_all : forall patient s, reach patient s -> joins_all (log s).
Proof. exact all_joined. Qed.
Print Assumptions C161_joins_all.

(** interrupt_all does not wait, whether or not join_all is being executed, unless a call of create_thread or remove_thread is in progress. *)
Theorem C161_goes_on_partial : forall patient s t, reach patient s -> (forall u, ~ in_writer (pc s u)) -> in_interrupt_all (pc s t) -> can_go patient s t.
Proof. exact goes_on. Qed.
Print Assumptions C161_goes_on_partial.

(** A case: member 1, which waits to be interrupted, is interrupted while thread 10 is in join_all, which then returns. *)
Definition all_patient : nat -> bool := fun _ => true.
Ltac by_call R c := let R' := fresh "R" in pose proof (r_call R c) as R'; cbn in R'; clear R; rename R' into R.
Ltac by_go R c := let R' := fresh "R" in pose proof (r_go R c) as R'; cbn in R'; clear R; rename R' into R.
Example C161_case : exists s, reach all_patient s /\
  log s = [JRet 10; EEnd 1; IRet 12; IReq 12 1; ICall 12; JCall 10; ECreate 1].
Proof.
  pose proof (r_init all_patient) as R.
  by_call R (@c_write start 0 (WCreate 1) eq_refl).
  match type of R with reach _ ?s => by_go R (@g_write all_patient s 0 (WCreate 1) eq_refl eq_refl (fun m _ (H : In (ECreate m) []) => H)) end.
  match type of R with reach _ ?s => by_call R (@c_join s 10 eq_refl) end.
  match type of R with reach _ ?s => by_go R (@g_join all_patient s 10 eq_refl eq_refl) end.
  match type of R with reach _ ?s => by_call R (@c_int s 12 eq_refl) end.
  match type of R with reach _ ?s => by_go R (@g_int all_patient s 12 eq_refl eq_refl) end.
  match type of R with reach _ ?s => by_go R (@g_req all_patient s 12 1 [] eq_refl) end.
  match type of R with reach _ ?s => by_go R (@g_iret all_patient s 12 eq_refl) end.
  match type of R with reach _ ?s => assert (G : go all_patient s (MkSt (grp s) (rdrs s) (xw s) (pc s) (EEnd 1 :: log s))) end.
  { apply g_end; cbn; [auto 10| |intros _; exists 12; auto]. intros H. repeat (destruct H as [H|H]; [discriminate|]). exact H. }
  cbn in G. by_go R G.
  match type of R with reach _ ?s => by_go R (@g_wait all_patient s 10 1 [] eq_refl (or_introl eq_refl)) end.
  match type of R with reach _ ?s => by_go R (@g_jret all_patient s 10 eq_refl) end.
  eexists. split; [exact R|]. reflexivity.
Qed.

(** Another: thread 12 is about to lock the mutex in interrupt_all while thread 10 is in join_all, and can go on; members 1 and 2 are in the group, of which 3 has been removed. *)
Example C161_goes_on_case : exists s, reach all_patient s /\ pc s 10 = PJoin [1; 2] /\ pc s 12 = PIW /\ (forall u, ~ in_writer (pc s u)) /\
  log s = [ICall 12; JCall 10; ECreate 2; ERemove 3; ECreate 1; ECreate 3].
Proof.
  pose proof (r_init all_patient) as R.
  by_call R (@c_write start 0 (WCreate 3) eq_refl).
  match type of R with reach _ ?s => by_go R (@g_write all_patient s 0 (WCreate 3) eq_refl eq_refl (fun m _ (H : In (ECreate m) []) => H)) end.
  match type of R with reach _ ?s => by_call R (@c_write s 0 (WCreate 1) eq_refl) end.
  match type of R with reach _ ?s => assert (F : forall m, WCreate 1 = WCreate m -> ~ In (ECreate m) (log s)) end.
  { intros m E [K|[]]. injection K as <-. discriminate. }
  cbn in F. match type of R with reach _ ?s => by_go R (@g_write all_patient s 0 (WCreate 1) eq_refl eq_refl F) end. clear F.
  match type of R with reach _ ?s => by_call R (@c_write s 0 (WRemove 3) eq_refl) end.
  match type of R with reach _ ?s => assert (F : forall m, WRemove 3 = WCreate m -> ~ In (ECreate m) (log s)) by discriminate end.
  cbn in F. match type of R with reach _ ?s => by_go R (@g_write all_patient s 0 (WRemove 3) eq_refl eq_refl F) end. clear F.
  match type of R with reach _ ?s => by_call R (@c_write s 0 (WCreate 2) eq_refl) end.
  match type of R with reach _ ?s => assert (F : forall m, WCreate 2 = WCreate m -> ~ In (ECreate m) (log s)) end.
  { intros m E. injection E as <-. cbn. intros K. repeat (destruct K as [K|K]; [discriminate|]). exact K. }
  cbn in F. match type of R with reach _ ?s => by_go R (@g_write all_patient s 0 (WCreate 2) eq_refl eq_refl F) end. clear F.
  match type of R with reach _ ?s => by_call R (@c_join s 10 eq_refl) end.
  match type of R with reach _ ?s => by_go R (@g_join all_patient s 10 eq_refl eq_refl) end.
  match type of R with reach _ ?s => by_call R (@c_int s 12 eq_refl) end.
  eexists. split; [exact R|]. split; [reflexivity|]. split; [reflexivity|]. split; [|reflexivity].
  cbn. intros u. unfold upd. repeat (match goal with |- context [if ?b then _ else _] => destruct b; [intros []|] end). intros [].
Qed.

(** It may wait for ever beside create_thread: thread 10 is in join_all and waits for member 1, which waits to be interrupted; thread 11 calls create_thread
    and waits for thread 10; thread 12 calls interrupt_all, and waits behind thread 11. Nothing can happen any more. *)
Theorem C161_goes_on_refuted : ~ (forall patient s t, reach patient s -> in_interrupt_all (pc s t) -> alive patient s).
Proof.
  intros H. pose proof (r_init all_patient) as R.
  by_call R (@c_write start 0 (WCreate 1) eq_refl).
  match type of R with reach _ ?s => by_go R (@g_write all_patient s 0 (WCreate 1) eq_refl eq_refl (fun m _ (H : In (ECreate m) []) => H)) end.
  match type of R with reach _ ?s => by_call R (@c_join s 10 eq_refl) end.
  match type of R with reach _ ?s => by_go R (@g_join all_patient s 10 eq_refl eq_refl) end.
  match type of R with reach _ ?s => by_call R (@c_write s 11 (WCreate 2) eq_refl) end.
  match type of R with reach _ ?s => by_call R (@c_int s 12 eq_refl) end.
  specialize (H _ _ 12 R Logic.I). destruct H as (s' & G). inversion G as [t E F|t m l E|t E|t E F|t m l E F|t E|t w E F|m E F K]; subst; cbn in *; try discriminate.
  all: try (unfold upd in E; repeat (match type of E with context [if ?b then _ else _] => destruct b eqn:?; try discriminate end)).
  - injection E as <- <-. repeat (destruct F as [F|F]; [discriminate|]). exact F.
  - destruct (K eq_refl) as (t & Q). repeat (destruct Q as [Q|Q]; [discriminate|]). exact Q.
Qed.
Print Assumptions C161_goes_on_refuted.

(** interrupt_all and join_all may access the same thread object at the same time, one of them changing it: a data race. *)
Theorem C161_no_clash_refuted : ~ (forall patient s, reach patient s -> no_clash s).
Proof.
  intros H. pose proof (r_init (fun _ => false)) as R.
  by_call R (@c_write start 0 (WCreate 1) eq_refl).
  match type of R with reach ?p ?s => by_go R (@g_write p s 0 (WCreate 1) eq_refl eq_refl (fun m _ (H : In (ECreate m) []) => H)) end.
  match type of R with reach _ ?s => by_call R (@c_join s 10 eq_refl) end.
  match type of R with reach ?p ?s => by_go R (@g_join p s 10 eq_refl eq_refl) end.
  match type of R with reach _ ?s => by_call R (@c_int s 12 eq_refl) end.
  match type of R with reach ?p ?s => by_go R (@g_int p s 12 eq_refl eq_refl) end.
  match type of R with reach ?p ?s => assert (G : go p s (MkSt (grp s) (rdrs s) (xw s) (pc s) (EEnd 1 :: log s))) end.
  { apply g_end; cbn; [auto 10| |discriminate]. intros K. repeat (destruct K as [K|K]; [discriminate|]). exact K. }
  cbn in G. by_go R G.
  apply (H _ _ R 12 10 1 [] [] eq_refl eq_refl). now left.
Qed.
Print Assumptions C161_no_clash_refuted.
