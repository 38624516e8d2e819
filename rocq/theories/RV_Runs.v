(** * Runs of the Windows recursive mutex (for the examples in RV_Props.v): an executable form of [step] *)
From Coq Require Import List Arith Lia Bool.
Import ListNotations.
From Verif Require Import Monitor WM_Model RV_Model RV_Spec.

(** [LAcc t i]: thread [t] makes the next step of its call; if that reads locking_thread_id, it reads the
    [i]-th newest write. *)
Inductive lab := LCall (t : nat) (op : wrop) | LDo (t : nat) | LLate (t : nat) | LAcc (t i : nat).
Definition free_tsb (ms : list msg) (n : nat) : bool := forallb (fun m => negb (m_ts m =? n)) ms.
Section Exec.
  Variables W D : nat.
  Definition exec (s : st) (l : lab) : option st :=
    match l with
    | LCall t op =>
        match pcs s t with
        | PIdle b => if wrpre D b op then Some (MkSt (idm s) (hold s) (mxv s) (cnt s) (vw s) (upd (pcs s) t (PIn op b (RB op))) (log s) (nexte s)) else None
        | _ => None
        end
    | LDo t =>
        match pcs s t with
        | PIdle (S _) => Some (MkSt (idm s) (hold s) (mxv s) (cnt s) (upd (vw s) t (see (vw s t) (nexte s))) (pcs s)
                               (EvDo t (nexte s) (v_see (vw s t)) :: log s) (S (nexte s)))
        | _ => None
        end
    | LLate t =>
        match pcs s t with
        | PIn RTimed b (RAcq RTimed) => Some (MkSt (idm s) (hold s) (mxv s) (cnt s) (vw s) (upd (pcs s) t (PIn RTimed b RGive)) (log s) (nexte s))
        | _ => None
        end
    | LAcc t i =>
        match pcs s t with
        | PIn op b k =>
            match uses k with
            | UNone => let '(s', ns, o) := wrfrag W t false k (MkR (cnt s) 0 (taken s)) in
                Some (MkSt (idm s) (hold s) (mxv s) (cnt s) (vw s) (upd (pcs s) t (after op b o)) (says t op k o ++ log s) (nexte s))
            | UCnt => let '(s', ns, o) := wrfrag W t false k (MkR (cnt s) 0 (taken s)) in
                Some (MkSt (idm s) (hold s) (mxv s) (rcount s') (upd (vw s) t (see (vw s t) (nexte s))) (upd (pcs s) t (after op b o))
                   (says t op k o ++ EvCnt t (nexte s) (v_see (vw s t)) :: log s) (S (nexte s)))
            | UMx => let '(s', ns, o) := wrfrag W t false k (MkR (cnt s) 0 (taken s)) in
                if held s' then
                  if taken s then
                    Some (MkSt (idm s) (hold s) (mxv s) (cnt s) (vw s) (upd (pcs s) t (after op b o)) (says t op k o ++ log s) (nexte s))
                  else
                    Some (MkSt (idm s) (Some t) (mxv s) (cnt s) (upd (vw s) t (join (vw s t) (mxv s))) (upd (pcs s) t (after op b o))
                         (says t op k o ++ log s) (nexte s))
                else Some (MkSt (idm s) None (vw s t) (cnt s) (vw s) (upd (pcs s) t (after op b o)) (says t op k o ++ log s) (nexte s))
            | u =>
                match nth_error (idm s) i with
                | None => None
                | Some m =>
                    let '(s', ns, o) := wrfrag W t false k (MkR (cnt s) (m_val m) (taken s)) in
                    if negb (v_ts (vw s t) <=? m_ts m) then None else
                    match u with
                    | UXchg =>
                        if free_tsb (idm s) (S (m_ts m)) then
                          let v := raise (join (raise (vw s t) (m_ts m)) (m_view m)) (S (m_ts m)) in
                          Some (MkSt (MkMsg (S (m_ts m)) (rid s') v :: idm s) (hold s) (mxv s) (cnt s) (upd (vw s) t v)
                               (upd (pcs s) t (after op b o)) (says t op k o ++ log s) (nexte s))
                        else None
                    | _ => Some (MkSt (idm s) (hold s) (mxv s) (cnt s) (upd (vw s) t (join (raise (vw s t) (m_ts m)) (m_view m)))
                             (upd (pcs s) t (after op b o)) (says t op k o ++ log s) (nexte s))
                    end
                end
            end
        | _ => None
        end
    end.
  Lemma free_tsb_ok : forall ms n, free_tsb ms n = true -> free_ts ms n.
  Proof. intros ms n H m I E. unfold free_tsb in H. rewrite forallb_forall in H. apply H in I. rewrite E, Nat.eqb_refl in I. discriminate. Qed.
  Lemma exec_step : forall s l s', exec s l = Some s' -> step W D s s'.
  Proof.
    intros s l s' H. destruct l as [t op|t|t|t i]; cbn [exec] in H; destruct (pcs s t) as [b|op' b k|] eqn:P; try discriminate.
    - destruct (wrpre D b op) eqn:E; [|discriminate]. injection H as <-. eapply s_call; eauto.
    - destruct b; [discriminate|]. injection H as <-. eapply s_do; eauto.
    - destruct op'; try discriminate. destruct k as [| |[]| | | | |]; try discriminate. injection H as <-. eapply s_late; eauto.
    - destruct (uses k) eqn:A.
      + destruct (nth_error (idm s) i) as [m|] eqn:N; [|discriminate]. apply nth_error_In in N.
        destruct (wrfrag _ _ _ _ _) as [[s1 ns] o] eqn:E. destruct (v_ts (vw s t) <=? m_ts m) eqn:L; [|discriminate].
        apply Nat.leb_le in L. injection H as <-. eapply s_id; eauto. now split.
      + destruct (nth_error (idm s) i) as [m|] eqn:N; [|discriminate]. apply nth_error_In in N.
        destruct (wrfrag _ _ _ _ _) as [[s1 ns] o] eqn:E. destruct (v_ts (vw s t) <=? m_ts m) eqn:L; [|discriminate].
        apply Nat.leb_le in L. cbn [negb] in H. destruct (free_tsb (idm s) (S (m_ts m))) eqn:F; [|discriminate]. injection H as <-.
        eapply s_xchg; eauto using free_tsb_ok. now split.
      + destruct (wrfrag _ _ _ _ _) as [[s1 ns] o] eqn:E. injection H as <-. eapply s_cnt; eauto.
      + destruct (wrfrag _ _ _ _ _) as [[s1 ns] o] eqn:E. destruct (held s1) eqn:B; [destruct (taken s) eqn:C|]; injection H as <-.
        * eapply s_busy; eauto. rewrite C. exact E.
        * eapply s_take; eauto. rewrite C. exact E.
        * eapply s_give; eauto.
      + destruct (wrfrag _ _ _ _ _) as [[s1 ns] o] eqn:E. injection H as <-. eapply s_none; eauto.
  Qed.
  Fixpoint runs (s : st) (ls : list lab) : option st :=
    match ls with [] => Some s | l :: r => match exec s l with Some s' => runs s' r | None => None end end.
  Lemma runs_reach : forall ls s s', reach W D s -> runs s ls = Some s' -> reach W D s'.
  Proof.
    induction ls as [|l r IH]; cbn [runs]; intros s s' R H; [injection H as <-; auto|].
    destruct (exec s l) as [s1|] eqn:E; [|discriminate]. apply (IH s1); auto. eapply r_step; [exact R|]. exact (exec_step _ _ _ E).
  Qed.
End Exec.
