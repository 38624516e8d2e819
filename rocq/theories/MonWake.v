(** * notify_all leaves nobody asleep on its condition variable *)

From Verif Require Export MonTrace SettleR.
Set Implicit Arguments.

Section Wake.
  Variables S K Op R C L E : Type.
  Variable P : prog S K Op R C L E.
  Notation tst := (tstat K Op C L).

  Definition not_on (cv : C) (x : tst) : Prop := asleep_on P cv x = false.

  Lemma not_on_wake cv x : not_on cv (wake x).
  Proof. destruct x; reflexivity. Qed.

  Lemma not_on_deliver cv n p l l' :
    deliver P n p l = Some l' -> Forall (not_on cv) l -> Forall (not_on cv) l'.
  Proof.
    intros Hd. eapply woken_Forall; [eapply deliver_woken; eauto|]. intros. apply not_on_wake.
  Qed.

  Lemma not_on_deliver_all cv ns ps l l' :
    deliver_all P ns ps l = Some l' -> Forall (not_on cv) l -> Forall (not_on cv) l'.
  Proof.
    intros Hd. eapply woken_Forall; [eapply deliver_all_woken; eauto|]. intros. apply not_on_wake.
  Qed.

  Lemma deliver_all_NAll cv ns ps l l' :
    deliver_all P ns ps l = Some l' -> In (NAll cv) ns -> Forall (not_on cv) l'.
  Proof.
    revert ps l; induction ns as [|n ns IH]; intros ps l Hd Hin; simpl in Hd, Hin; [tauto|].
    destruct Hin as [->|Hin].
    - eapply not_on_deliver_all; [exact Hd|]. apply Forall_forall. intros x Hx.
      apply in_map_iff in Hx as (y & <- & _). unfold wake_if.
      destruct (asleep_on P cv y) eqn:Hy; [apply not_on_wake|exact Hy].
    - destruct (deliver P n (hd 0 ps) l) as [l1|]; [|discriminate]. eauto.
  Qed.
End Wake.
