(** * Runs of call_once (for the examples in OM_Props.v)

    Flag 5. Thread 0 executes the function, which throws; thread 1 executes it again; thread 2 returns. *)
From Coq Require Import List Arith Lia.
Import ListNotations.
From Verif Require Import OM_Model OM_Spec.

Ltac ok :=
  first [ reflexivity | discriminate | (left; reflexivity)
        | (split; [left; reflexivity|vm_compute; lia])
        | (split; [vm_compute; lia|let K := fresh in intros ? K; vm_compute in K; repeat destruct K as [<-|K]; try destruct K; vm_compute; lia])
        | (let K := fresh in intros ? K; vm_compute in K; repeat destruct K as [<-|K]; try destruct K; vm_compute; lia)
        | (vm_compute; lia) ].
Tactic Notation "go" constr(p) uconstr(rule) := eexists; eapply r_step; [exact (proj2_sig p)|eapply rule; ok].
Tactic Notation "go" constr(p) uconstr(user) uconstr(rule) := eexists; eapply r_step; [exact (proj2_sig p)|eapply user; eapply rule; ok].

Definition ar0 : {s | reach astep (init 0) s}.
Proof. eexists. apply r_refl. Defined.
Definition ar1 : {s | reach astep (init 0) s}.
Proof. go ar0 (@a_user ) (@u_call _ 0 5). Defined.
Definition ar2 : {s | reach astep (init 0) s}.
Proof. go ar1 (@a_slow _ 0). Defined.
Definition ar3 : {s | reach astep (init 0) s}.
Proof. go ar2 (@a_lock _ 0). Defined.
Definition ar4 : {s | reach astep (init 0) s}.
Proof. go ar3 (@a_chk_go _ 0). Defined.
Definition ar5 : {s | reach astep (init 0) s}.
Proof. go ar4 (@a_cas_ok _ 0). Defined.
Definition ar6 : {s | reach astep (init 0) s}.
Proof. go ar5 (@a_unl_run _ 0). Defined.
Definition ar7 : {s | reach astep (init 0) s}.
Proof. go ar6 (@a_user ) (@u_call _ 1 5). Defined.
Definition ar8 : {s | reach astep (init 0) s}.
Proof. go ar7 (@a_slow _ 1). Defined.
Definition ar9 : {s | reach astep (init 0) s}.
Proof. go ar8 (@a_lock _ 1). Defined.
Definition ar10 : {s | reach astep (init 0) s}.
Proof. go ar9 (@a_chk_go _ 1). Defined.
Definition ar11 : {s | reach astep (init 0) s}.
Proof. go ar10 (@a_cas_wait _ 1). Defined.
Definition ar12 : {s | reach astep (init 0) s}.
Proof. go ar11 (@a_user ) (@u_end _ 0 5 0 false []). Defined.
Definition ar13 : {s | reach astep (init 0) s}.
Proof. go ar12 (@a_done _ 0). Defined.
Definition ar14 : {s | reach astep (init 0) s}.
Proof. go ar13 (@a_rollback _ 0 5 [] 10). Defined.
Definition ar15 : {s | reach astep (init 0) s}.
Proof. go ar14 (@a_unl_throw _ 0). Defined.
Definition ar16 : {s | reach astep (init 0) s}.
Proof. go ar15 (@a_wake _ 1). Defined.
Definition ar17 : {s | reach astep (init 0) s}.
Proof. go ar16 (@a_cas_ok _ 1). Defined.
Definition ar18 : {s | reach astep (init 0) s}.
Proof. go ar17 (@a_unl_run _ 1). Defined.
Definition ar19 : {s | reach astep (init 0) s}.
Proof. go ar18 (@a_user ) (@u_end _ 1 5 1 true []). Defined.
Definition ar20 : {s | reach astep (init 0) s}.
Proof. go ar19 (@a_done _ 1). Defined.
Definition ar21 : {s | reach astep (init 0) s}.
Proof. go ar20 (@a_commit _ 1 5 [] 20). Defined.
Definition ar22 : {s | reach astep (init 0) s}.
Proof. go ar21 (@a_unl_ret _ 1). Defined.
Definition ar23 : {s | reach astep (init 0) s}.
Proof. go ar22 (@a_user ) (@u_call _ 2 5). Defined.
Definition ar24 : {s | reach astep (init 0) s}.
Proof. go ar23 (@a_fast _ 2). Defined.
Definition ar_end : {s | reach astep (init 0) s} := ar24.

(** Epochs of 32 bits would do as well. *)
Definition W0 := 16.

Definition er0 : {s | reach (estep W0) (init W0) s}.
Proof. eexists. apply r_refl. Defined.
Definition er1 : {s | reach (estep W0) (init W0) s}.
Proof. go er0 (@e_user W0 ) (@u_call _ 0 5). Defined.
Definition er2 : {s | reach (estep W0) (init W0) s}.
Proof. go er1 (@e_slow W0 _ 0). Defined.
Definition er3 : {s | reach (estep W0) (init W0) s}.
Proof. go er2 (@e_lock W0 _ 0). Defined.
Definition er4 : {s | reach (estep W0) (init W0) s}.
Proof. go er3 (@e_take W0 _ 0 5 [] _ 7). Defined.
Definition er5 : {s | reach (estep W0) (init W0) s}.
Proof. go er4 (@e_unl_run W0 _ 0). Defined.
Definition er6 : {s | reach (estep W0) (init W0) s}.
Proof. go er5 (@e_user W0 ) (@u_call _ 1 5). Defined.
Definition er7 : {s | reach (estep W0) (init W0) s}.
Proof. go er6 (@e_slow W0 _ 1). Defined.
Definition er8 : {s | reach (estep W0) (init W0) s}.
Proof. go er7 (@e_lock W0 _ 1). Defined.
Definition er9 : {s | reach (estep W0) (init W0) s}.
Proof. go er8 (@e_wait W0 _ 1). Defined.
Definition er10 : {s | reach (estep W0) (init W0) s}.
Proof. go er9 (@e_user W0 ) (@u_end _ 0 5 0 false []). Defined.
Definition er11 : {s | reach (estep W0) (init W0) s}.
Proof. go er10 (@e_done W0 _ 0). Defined.
Definition er12 : {s | reach (estep W0) (init W0) s}.
Proof. go er11 (@e_rollback W0 _ 0 5 [] 10). Defined.
Definition er13 : {s | reach (estep W0) (init W0) s}.
Proof. go er12 (@e_unl_throw W0 _ 0). Defined.
Definition er14 : {s | reach (estep W0) (init W0) s}.
Proof. go er13 (@e_wake W0 _ 1). Defined.
Definition er15 : {s | reach (estep W0) (init W0) s}.
Proof. go er14 (@e_take W0 _ 1 5 [] _ 17). Defined.
Definition er16 : {s | reach (estep W0) (init W0) s}.
Proof. go er15 (@e_unl_run W0 _ 1). Defined.
Definition er17 : {s | reach (estep W0) (init W0) s}.
Proof. go er16 (@e_user W0 ) (@u_end _ 1 5 1 true []). Defined.
Definition er18 : {s | reach (estep W0) (init W0) s}.
Proof. go er17 (@e_done W0 _ 1). Defined.
Definition er19 : {s | reach (estep W0) (init W0) s}.
Proof. go er18 (@e_commit W0 _ 1 5 [] 20). Defined.
Definition er20 : {s | reach (estep W0) (init W0) s}.
Proof. go er19 (@e_leave W0 _ 1). Defined.
Definition er21 : {s | reach (estep W0) (init W0) s}.
Proof. go er20 (@e_unl_ret W0 _ 1). Defined.
Definition er22 : {s | reach (estep W0) (init W0) s}.
Proof. go er21 (@e_user W0 ) (@u_call _ 2 5). Defined.
Definition er23 : {s | reach (estep W0) (init W0) s}.
Proof. go er22 (@e_slow W0 _ 2). Defined.
Definition er24 : {s | reach (estep W0) (init W0) s}.
Proof. go er23 (@e_lock W0 _ 2). Defined.
Definition er25 : {s | reach (estep W0) (init W0) s}.
Proof. go er24 (@e_leave W0 _ 2). Defined.
Definition er26 : {s | reach (estep W0) (init W0) s}.
Proof. go er25 (@e_unl_ret W0 _ 2). Defined.
Definition er27 : {s | reach (estep W0) (init W0) s}.
Proof. go er26 (@e_user W0 ) (@u_call _ 2 5). Defined.
Definition er28 : {s | reach (estep W0) (init W0) s}.
Proof. go er27 (@e_fast W0 _ 2). Defined.
Definition er_end : {s | reach (estep W0) (init W0) s} := er28.

Definition wr0 : {s | reach wstep (init 0) s}.
Proof. eexists. apply r_refl. Defined.
Definition wr1 : {s | reach wstep (init 0) s}.
Proof. go wr0 (@w_user ) (@u_call _ 0 5). Defined.
Definition wr2 : {s | reach wstep (init 0) s}.
Proof. go wr1 (@w_slow _ 0). Defined.
Definition wr3 : {s | reach wstep (init 0) s}.
Proof. go wr2 (@w_cas_ok _ 0). Defined.
Definition wr4 : {s | reach wstep (init 0) s}.
Proof. go wr3 (@w_run _ 0). Defined.
Definition wr5 : {s | reach wstep (init 0) s}.
Proof. go wr4 (@w_user ) (@u_call _ 1 5). Defined.
Definition wr6 : {s | reach wstep (init 0) s}.
Proof. go wr5 (@w_slow _ 1). Defined.
Definition wr7 : {s | reach wstep (init 0) s}.
Proof. go wr6 (@w_cas_no _ 1). Defined.
Definition wr8 : {s | reach wstep (init 0) s}.
Proof. go wr7 (@w_chk_wait _ 1). Defined.
Definition wr9 : {s | reach wstep (init 0) s}.
Proof. go wr8 (@w_user ) (@u_end _ 0 5 0 false []). Defined.
Definition wr10 : {s | reach wstep (init 0) s}.
Proof. go wr9 (@w_rollback _ 0). Defined.
Definition wr11 : {s | reach wstep (init 0) s}.
Proof. go wr10 (@w_slow _ 1). Defined.
Definition wr12 : {s | reach wstep (init 0) s}.
Proof. go wr11 (@w_cas_ok _ 1). Defined.
Definition wr13 : {s | reach wstep (init 0) s}.
Proof. go wr12 (@w_run _ 1). Defined.
Definition wr14 : {s | reach wstep (init 0) s}.
Proof. go wr13 (@w_user ) (@u_end _ 1 5 1 true []). Defined.
Definition wr15 : {s | reach wstep (init 0) s}.
Proof. go wr14 (@w_commit _ 1). Defined.
Definition wr16 : {s | reach wstep (init 0) s}.
Proof. go wr15 (@w_user ) (@u_call _ 2 5). Defined.
Definition wr17 : {s | reach wstep (init 0) s}.
Proof. go wr16 (@w_fast _ 2). Defined.
Definition wr_end : {s | reach wstep (init 0) s} := wr17.
