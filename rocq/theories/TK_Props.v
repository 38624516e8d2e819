(** * The properties of testable_mutex *)
From Verif Require Import TK_Model TK_Spec TK_Inv.
Set Implicit Arguments.

(** ** C132: a testable_mutex says truthfully who holds it *)
Theorem testable_truth :
  forall n s, reach n s ->
    (* at most one thread holds it *)
    (forall t u, holds t (hist s) = true -> holds u (hist s) = true -> t = u) /\
    (* and no thread is told that it owns it while another is still in unlock: the wrapped mutex is what excludes *)
    (forall t u, holds t (hist s) = true -> unlocking u (hist s) = false) /\
    forall h2 e h1, hist s = h2 ++ e :: h1 ->
      match e with
      | EMine t b => b = holds t h1                                                       (* about the calling thread *)
      | EIs _ b => b = true <-> exists u, holds u h1 = true
      | EGet _ o => forall u, o = Some u <-> holds u h1 = true
      | _ => True
      end.
Proof.
  intros n s R. pose proof (inv_reach R) as I.
  assert (One : forall t u, holds t (hist s) = true -> holds u (hist s) = true -> t = u).
  { intros t u. rewrite !(i_holds I). destruct (nth_error (pcs s) t) as [[]|] eqn:T; try discriminate.
    destruct (nth_error (pcs s) u) as [[]|] eqn:U; try discriminate. intros _ _. apply (i_id I) in T. apply (i_id I) in U. congruence. }
  split; [exact One|]. split.
  - intros t u. rewrite (i_holds I), (i_un I). destruct (nth_error (pcs s) t) as [[]|] eqn:T; try discriminate. intros _.
    destruct (nth_error (pcs s) u) as [[]|] eqn:U; auto.
    assert (own s = Some t) by (apply (i_own I t T); reflexivity). assert (own s = Some u) by (apply (i_own I u U); reflexivity). congruence.
  - intros h2 e h1 E. pose proof (i_good I) as G. rewrite E in G. apply goods_mid in G. destruct e as [| | | | |t b|t b|t o]; auto.
    cbn in G. destruct b; [split; auto|]. split; [discriminate|]. intros (u & X). congruence.
Qed.
Print Assumptions testable_truth.

Example testable_run : exists s,
  runl (tk0 3) [LCall 0 false; LCall 1 false; LTake 0; LIs 2; LStore 0; LMine 0; LMine 2; LIs 2; LUnlock 0; LIs 2; LRelease 0; LTake 1; LStore 1; LCall 0 true; LFail 0; LGetId 0] = Some s /\
  hist s = [EGet 0 (Some 1); EFailed 0; ECall 0; ELocked 1; EUnlocked 0; EIs 2 false; EUnlock 0; EIs 2 true; EMine 2 false; EMine 0 true; ELocked 0; EIs 2 false; ECall 1; ECall 0].
Proof. eexists. split; [vm_compute; reflexivity|reflexivity]. Qed.
