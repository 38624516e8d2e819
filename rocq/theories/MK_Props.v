(** * C56: the functions that make ready futures *)
From Verif Require Import MonitorLemmas FU_Model FU_Spec MK_Model.
Set Implicit Arguments.

(** What the caller of each function asks for *)
Definition requested (m : maker) : outc :=
  match m with
  | MMakeFuture v | MMakeReady v | MMakeReadyNoDecay v | MMakeShared v => Val v
  | MMakeFutureVoid | MMakeReadyVoid | MMakeSharedVoid => Val 0
  | MMakeReadyExc n | MMakeExceptional n => Exc (EUser n)
  end.
(** What a call on a future that is ready with the outcome [o] may return.  [RMoved], [RUninit]: a get() was made before it. *)
Definition answer (o : outc) (op : fop) (r : fres) : Prop :=
  match op with
  | OReady => r = RBool true
  | OWait | OWaitUntil => r = RReady
  | OHasValue => r = RBool (match o with Val _ => true | Exc _ => false end)
  | OHasExc => r = RBool (match o with Val _ => false | Exc _ => true end)
  | OExcPtr => r = RPtr (match o with Val _ => None | Exc e => Some e end)
  | OGetSh | OGetOrSh _ => match o with Val v => r = RVal v \/ r = RMoved | Exc e => r = RExc e end
  | OGet => r = RUninit \/ match o with Val v => r = RVal v \/ r = RMoved | Exc e => r = RExc e end
  | OGetOr w => r = RUninit \/ match o with Val v => r = RVal v \/ r = RMoved | Exc _ => r = RVal w end
  | _ => False
  end.
Definition taking (op : fop) : bool := match op with OGet | OGetOr _ => true | _ => false end.
Definition took (ev : fevent) : bool := match ev with EDone _ op _ => taking op | _ => false end.

Section Ready.
  Variable o : outc.
  Definition has (s : fst_) : Prop := done s = true /\ defd s = false /\ match o with Val v => val s = Some v /\ exc s = None | Exc e => exc s = Some e end.
  Definition fine (x : tstat fk fop fcv unit) : Prop :=
    match x with Idle _ _ _ _ => True
    | Ready _ _ op k => reader op = true /\ (k = KStart op \/ exists w v, op = OGetOrSh w /\ o = Val v /\ (k = KGos w \/ k = KGos2 w))
    | _ => False end.
  Record RInv (c : fuconf) : Prop := {
    r_s : has (sh c);
    r_t : Forall fine (thr c);
    r_h : forall t op r, In (EDone t op r) (hist c) -> fst r = None /\ answer o op (snd r);
    r_first : existsb took (hist c) = false -> valid (sh c) = true /\ taken (sh c) = false;
    r_val : forall h2 t op r h1, hist c = h2 ++ EDone t op r :: h1 -> existsb took h1 = false -> snd r <> RMoved /\ snd r <> RUninit }.

End Ready.

  Lemma frag_reader iag o t e op k s s' ns out : has o s -> fine o (Ready fcv tt op k) -> ffrag iag t e k s = (s', ns, out) ->
    ns = [] /\ has o s' /\ (taking op = false -> valid s' = valid s /\ taken s' = taken s) /\
    match out with
    | ORet _ _ r => fst r = None /\ answer o op (snd r) /\ (valid s = true -> taken s = false -> snd r <> RMoved /\ snd r <> RUninit)
    | OYield _ _ k' => s' = s /\ fine o (Ready fcv tt op k')
    | _ => False end.
  Proof.
    intros (Hd & Hf & Ho) [Hr Hk] H. destruct s as [va ex dn cn df vl tk st ca]. cbn in Hd, Hf, Ho. subst dn df.
    destruct Hk as [->|(w & v & -> & -> & Hk)].
    - destruct op; try discriminate Hr; destruct o as [v|x]; destruct iag, vl; cbn in H; lazymatch type of Ho with _ /\ _ => destruct Ho as [-> ->] | _ => subst ex end; cbn in H; inversion H; subst; clear H;
        (split; [reflexivity|split; [split; cbn; auto|]]); (split; [try discriminate; auto|]); cbn; try (split; auto; split; auto); try (destruct tk; intros; split; congruence); try (destruct tk; auto; fail).
      all: try (intros; split; try congruence; destruct tk; congruence).
      all: try (right; exists w, v; auto).
    - destruct Ho as [-> ->]. destruct Hk as [-> | ->]; cbn in H; inversion H; subst; (split; [reflexivity|split; [split; cbn; auto|]]); (split; [auto|]); cbn.
      + split; auto. split; auto. right. exists w, v. auto.
      + split; auto. split; [destruct tk; auto|]. intros _ ->. split; discriminate.
  Qed.

  Lemma RInv_step iag o c c' : RInv o c -> stepcase (fuprog iag reader) c c' -> RInv o c'.
  Proof.
    intros [I1 I2 I3 I4 I5] Hs. assert (I2' : forall t x, nth_error (thr c) t = Some x -> fine o x) by (intros t x Hx; eapply Forall_nth_error; eauto). destruct Hs as
     [t l op Ht Hp ->|t ps e l op k s' ns out thr' Ht Hfr Hd ->|t p l n ns thr' Ht Hd ->
     |t l op cv k Ht ->|t l op cv k k' Ht Hk ->|t l op cv k k' Ht Hk ->|t l op k k' Ht Hk ->];
      try (specialize (I2' _ _ Ht); destruct I2'; fail).
    - constructor; cbn; auto.
      + apply Forall_upd; auto. split; auto.
      + intros t0 op0 r [E|Hin]; [discriminate|eauto].
      + intros [|ev h2] t0 op0 r h1 E; [discriminate|]. injection E as _ E. eauto.
    - destruct l. destruct (frag_reader _ _ _ I1 (I2' _ _ Ht) Hfr) as (-> & Hs' & Htk & Ho). cbn in Hd. injection Hd as <-.
      destruct out as [r|r ns'|cv k'|k'|]; try contradiction; cbn [after fst snd].
      + destruct Ho as (Hn & Ha & Hm). constructor; cbn; auto.
        * apply Forall_upd; auto. exact I.
        * intros t0 op0 r0 [E|Hin]; [|eauto]. injection E as <- <- <-. auto.
        * intros E. apply orb_false_iff in E as [E1 E2]. destruct (Htk E1) as [-> ->]. auto.
        * intros [|ev h2] t0 op0 r0 h1 E Hh; injection E; [|intros; eauto]. intros <- <- <- <-. destruct (I4 Hh). auto.
      + destruct Ho as [-> Hf]. constructor; cbn; auto. apply Forall_upd; auto.
    - specialize (I2' _ _ Ht). destruct I2' as [_ [->|(w & v & _ & _ & [-> | ->])]]; discriminate.
  Qed.
  Lemma RInv_reachable iag o n s0 c : has o s0 -> valid s0 = true -> taken s0 = false -> reachable (fuprog iag reader) n s0 tt c -> RInv o c.
  Proof.
    intros H1 H2 H3. apply (reachable_inv (fuprog iag reader) (RInv o)); [|intros c0 c1; apply RInv_step].
    constructor; cbn; auto; try contradiction.
    - apply Forall_forall. intros x Hx. apply repeat_spec in Hx. subst. exact I.
    - intros [|? ?] ? ? ? ?; discriminate.
  Qed.

(** all but the deprecated make_shared_future() of no argument *)
Definition good (m : maker) : bool := match m with MMakeSharedVoid => false | _ => true end.

(** C56.  Let any number of threads use the future that one of the functions returned, in any schedule, with interruption requests: every call returns at once, with the requested outcome;
    until a get() on the (not shared) future has ended, never a moved-out value or future_uninitialized.  Missing: make_shared_future() without argument, for which it is false. *)
Theorem made_ready_partial : forall m, good m = true -> exists s0, made m = Some s0 /\
  forall iag n c, reachable (fuprog iag reader) n s0 tt c ->
    (forall t x, nth_error (thr c) t = Some x -> match x with Asleep _ _ _ _ | Crashed _ _ _ _ => False | _ => True end) /\
    (forall h2 t op r h1, hist c = h2 ++ EDone t op r :: h1 ->
       answer (requested m) op (snd r) /\ (existsb took h1 = false -> snd r <> RMoved /\ snd r <> RUninit)).
Proof.
  intros m Hm.
  assert (K : exists s0, made m = Some s0 /\ has (requested m) s0 /\ valid s0 = true /\ taken s0 = false)
    by (destruct m; try discriminate Hm; (eexists; split; [reflexivity|]); repeat split).
  destruct K as (s0 & E & K1 & K2 & K3). exists s0. split; auto. intros iag n c Hr. pose proof (RInv_reachable K1 K2 K3 Hr) as I. split.
  - intros t x Ht. assert (Hx : fine (requested m) x) by (eapply Forall_nth_error; [exact Ht|exact (r_t I)] || (eapply Forall_nth_error; [exact (r_t I)|exact Ht])). destruct x; auto.
  - intros h2 t op r h1 Hh. split; [|intros H; eapply (r_val I); eauto]. apply (r_h I t op r). rewrite Hh. apply in_or_app. right. left. reflexivity.
Qed.
Print Assumptions made_ready_partial.

(** C56.  make_shared_future() returns a future that is ready with the exception broken_promise instead of a value. *)
Theorem made_ready_refuted : exists s0, made MMakeSharedVoid = Some s0 /\
  exists c, reachable (fuprog false reader) 1 s0 tt c /\ hd_error (hist c) = Some (EDone 0 OGetSh (None, RExc EBroken)) /\ requested MMakeSharedVoid = Val 0.
Proof.
  eexists. split; [reflexivity|]. eexists. split; [exists [LCall outc 0 OGetSh; LRun fop 0 [] (Val 0)]; reflexivity|]. split; reflexivity.
Qed.
Print Assumptions made_ready_refuted.

(** ** The hypotheses are met *)
Example made_story : exists s0 c, made (MMakeReady 7) = Some s0 /\ reachable (fuprog true reader) 2 s0 tt c /\
  hist c = [EDone 0 OGet (None, RUninit); ECall res 0 OGet; EDone 1 OGet (None, RVal 7); EDone 0 OReady (None, RBool true); ECall res 1 OGet; ECall res 0 OReady].
Proof.
  eexists. eexists. split; [reflexivity|]. split; [exists [LCall outc 0 OReady; LCall outc 1 OGet; LRun fop 0 [] (Val 0); LRun fop 1 [] (Val 0); LCall outc 0 OGet; LRun fop 0 [] (Val 0)]; reflexivity|]. reflexivity.
Qed.
