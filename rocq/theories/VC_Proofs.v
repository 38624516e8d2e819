(** * Proofs about arguments *)
From Coq Require Import List Arith Bool Lia.
From Verif Require Import VC_Spec.
Import ListNotations.
Set Implicit Arguments.

Section P.
Variable V : Type.
Implicit Types h : heap V.
Lemma set_length h x c : length (set_nth h x c) = length h.
Proof. revert x; induction h as [|a h IH]; intros [|x]; cbn; auto. Qed.
Lemma content_app1 h h1 x : x < length h -> content (h ++ h1) x = content h x.
Proof. intros. unfold content. now rewrite app_nth1. Qed.
Lemma content_last h c : content (h ++ [c]) (length h) = c.
Proof. unfold content. rewrite app_nth2 by lia. now rewrite Nat.sub_diag. Qed.
Lemma content_end h c n : n = length h -> content (h ++ [c]) n = c.
Proof. intros ->. apply content_last. Qed.
Lemma content_set_ne h x y c : y <> x -> content (set_nth h x c) y = content h y.
Proof. revert x y; unfold content; induction h as [|a h IH]; intros [|x] [|y] Hn; cbn; try congruence. apply IH. lia. Qed.
End P.
Ltac len := repeat rewrite ?app_length, ?set_length; cbn [length]; lia.
Ltac look :=
  repeat first
    [ rewrite content_end by len
    | rewrite content_app1 by len
    | rewrite content_set_ne by len ].
Ltac runit H :=
  repeat (unfold perform, get_or, fallback_to, then_, pool_submit, serial_cont_submit, user_scheduler_submit, thread_executor_submit, thread_ctor, scheduler_submit, on_submit, resubmit,
    packaged_task, async, once_arg, task_run, set_value, mark_finished, make_ready_future, queue_push, timed_push, nullary_function, decay_copy, call1, overload, init, make, bindm, ret, reject, temp, mem in H; cbn in H).

Lemma copies_ok V (c : call V) k : careless c k = false -> copies c k.
Proof.
  intros Hc h x v h' r Hx Hv H.
  destruct c as [[st|]|[st|]| | | | | | | | | | | | | | | | ], k; try discriminate Hc; runit H; try discriminate H; injection H as <- <-;
    (split; [len|split; [look; try exact Hv; reflexivity|intros y Hy; look; reflexivity]]).
Qed.
Lemma takes_ok V (c : call V) : takes c.
Proof.
  intros h x k v h' r Hx Hv H.
  destruct c as [[st|]|[st|]| | | | | | | | | | | | | | | | ]; destruct k; runit H; try discriminate H; injection H as <- <-;
    (split; [len|split; [look; try exact Hv; reflexivity|intros y Hy Hn; destruct Hn as [Hn|Hn]; [look; reflexivity|try discriminate Hn; look; reflexivity]]]).
Qed.
Lemma delivers_ok V (c : call V) : delivers c.
Proof.
  intros h [x k t] v h' r Hx Hv H. cbn in Hx, Hv.
  destruct c as [[st|]|[st|]| | | | | | | | | | | | | | | | ], k, t; runit H; try discriminate H; injection H as <- <-; look; try exact Hv; reflexivity.
Qed.
Lemma perform_grows V (c : call V) h x k h' r : careless c k = false -> x < length h -> perform c (Expr x k LV) h = Some (h', r) -> r < length h' /\ length h <= length h'.
Proof.
  intros Hc Hx H.
  destruct c as [[st|]|[st|]| | | | | | | | | | | | | | | | ], k; try discriminate Hc; runit H; try discriminate H; injection H as <- <-; split; len.
Qed.
Lemma runs_ok V (h : heap V) l h' rs : runs h l h' rs ->
  (forall c x k, In (c, x, k) l -> careless c k = false /\ x < length h /\ content h x <> None) ->
  length h <= length h' /\ (forall y, y < length h -> content h' y = content h y) /\
  Forall2 (fun a r => let '(c, x, _) := a in length h <= r < length h' /\ exists v, content h x = Some v /\ content h' r = Some (due c v)) l rs /\ NoDup rs.
Proof.
  intros Hr. induction Hr as [h|h c x k l h1 r h2 rs Hp Hr IH]; intros Hl.
  { split; [lia|]. split; [reflexivity|]. split; [constructor|constructor]. }
  destruct (Hl c x k (or_introl eq_refl)) as (Hc & Hx & Hv). destruct (content h x) as [v|] eqn:Ev; [clear Hv|congruence].
  destruct (@copies_ok _ c k Hc h x v h1 r Hx Ev Hp) as (R1 & R2 & R3). destruct (@perform_grows _ c h x k h1 r Hc Hx Hp) as (G1 & G2).
  assert (Hl1 : forall c x k, In (c, x, k) l -> careless c k = false /\ x < length h1 /\ content h1 x <> None).
  { intros c1 x1 k1 Hin. destruct (Hl c1 x1 k1 (or_intror Hin)) as (A & B & C). split; [exact A|]. split; [lia|]. rewrite R3 by exact B. exact C. }
  destruct (IH Hl1) as (I1 & I2 & I3 & I4). split; [lia|]. split; [|split].
  - intros y Hy. rewrite I2 by lia. now apply R3.
  - constructor.
    + split; [lia|]. exists v. split; [exact Ev|]. rewrite I2 by exact G1. exact R2.
    + clear -I3 R3 Hl G2. induction I3 as [|[[c1 x1] k1] r1 l rs (A & v & B & C) I3 IH]; constructor.
      * split; [lia|]. exists v. split; [|exact C]. rewrite <- R3; [exact B|]. now destruct (Hl c1 x1 k1 (or_intror (or_introl eq_refl))).
      * apply IH. intros c2 x2 k2 Hin. apply (Hl c2 x2 k2). destruct Hin as [E|Hin]; [left; exact E|right; right; exact Hin].
  - constructor; [|exact I4]. intros Hin. clear -Hin I3 G1. induction I3 as [|[[c1 x1] k1] r1 l rs (A & _) I3 IH]; [destruct Hin|]. destruct Hin as [->|Hin]; [lia|now apply IH].
Qed.
