(** * Runs of the Windows mutex (for the examples in WV_Props.v): an executable form of [step] *)
From Coq Require Import List Arith Lia Bool.
Import ListNotations.
From Verif Require Import Monitor WM_Model WV_Model WV_Spec.

(** [LAcc t i e past]: thread [t] makes the next step of its call; if that accesses active_count, it reads the
    [i]-th newest write. *)
Inductive lab := LCall (t : nat) (op : wop) | LDo (t : nat) | LSync (t t' : nat) | LAcc (t i : nat) (e past : bool).
Definition free_tsb (ms : list msg) (n : nat) : bool := forallb (fun m => negb (m_ts m =? n)) ms.
Definition exec (s : st) (l : lab) : option st :=
  match l with
  | LCall t op =>
      match pcs s t with
      | PIdle b => if wpre b op then Some (MkSt (mem s) (vw s) (upd (pcs s) t (PIn op (KB op))) (log s) (nexte s)) else None
      | _ => None
      end
  | LDo t =>
      match pcs s t with
      | PIdle true => Some (MkSt (mem s) (upd (vw s) t (see (vw s t) (nexte s))) (pcs s)
                             (EvDo t (nexte s) (v_see (vw s t)) :: log s) (S (nexte s)))
      | _ => None
      end
  | LSync t t' =>
      match pcs s t with
      | PIdle _ => Some (MkSt (mem s) (upd (vw s) t (join (vw s t) (vw s t'))) (pcs s) (log s) (nexte s))
      | _ => None
      end
  | LAcc t i e past =>
      match pcs s t with
      | PIn op k =>
          match accesses k with
          | ANone => let '(s', ns, o) := wfrag t past k (MkM (MkW false false 0) e) in
              Some (MkSt (mem s) (vw s) (upd (pcs s) t (after op o)) (says t op k o ++ log s) (nexte s))
          | a =>
              match nth_error (mem s) i with
              | None => None
              | Some m =>
                  let '(s', ns, o) := wfrag t past k (MkM (m_val m) e) in
                  if negb (v_ts (vw s t) <=? m_ts m) then None else
                  match a with
                  | APlain => Some (MkSt (mem s) (upd (vw s) t (raise (vw s t) (m_ts m))) (upd (pcs s) t (after op o))
                                     (says t op k o ++ log s) (nexte s))
                  | _ =>
                      if stores k (m_val m) then
                        if free_tsb (mem s) (S (m_ts m)) then
                          let v := raise (join (raise (vw s t) (m_ts m)) (m_view m)) (S (m_ts m)) in
                          Some (MkSt (MkMsg (S (m_ts m)) (wd s') v :: mem s) (upd (vw s) t v) (upd (pcs s) t (after op o))
                                 (says t op k o ++ log s) (nexte s))
                        else None
                      else Some (MkSt (mem s) (upd (vw s) t (join (raise (vw s t) (m_ts m)) (m_view m))) (upd (pcs s) t (after op o))
                                  (says t op k o ++ log s) (nexte s))
                  end
              end
          end
      | _ => None
      end
  end.
Lemma free_tsb_ok : forall ms n, free_tsb ms n = true -> free_ts ms n.
Proof. intros ms n H m I E. unfold free_tsb in H. rewrite forallb_forall in H. apply H in I. rewrite E, Nat.eqb_refl in I. discriminate. Qed.
Lemma exec_step : forall s l s', exec s l = Some s' -> step s s'.
Proof.
  intros s l s' H. destruct l as [t op|t|t t'|t i e past]; cbn in H; destruct (pcs s t) as [b|op' k|] eqn:P; try discriminate.
  - destruct (wpre b op) eqn:W; [|discriminate]. injection H as <-. eapply s_call; eauto.
  - destruct b; [|discriminate]. injection H as <-. now apply s_do.
  - injection H as <-. eapply s_sync; eauto.
  - destruct (accesses k) eqn:A.
    + destruct (wfrag _ _ _ _) as [[s1 ns] o] eqn:E. injection H as <-. eapply s_none; eauto.
    + destruct (nth_error (mem s) i) as [m|] eqn:N; [|discriminate]. apply nth_error_In in N.
      destruct (wfrag _ _ _ _) as [[s1 ns] o] eqn:E. destruct (v_ts (vw s t) <=? m_ts m) eqn:L; [|discriminate].
      apply Nat.leb_le in L. injection H as <-. eapply s_read; eauto. now split.
    + destruct (nth_error (mem s) i) as [m|] eqn:N; [|discriminate]. apply nth_error_In in N.
      destruct (wfrag _ _ _ _) as [[s1 ns] o] eqn:E. destruct (v_ts (vw s t) <=? m_ts m) eqn:L; [|discriminate].
      apply Nat.leb_le in L. cbn [negb] in H. destruct (stores k (m_val m)) eqn:Q.
      * destruct (free_tsb (mem s) (S (m_ts m))) eqn:F; [|discriminate]. injection H as <-.
        eapply s_rmw; eauto using free_tsb_ok. now split.
      * injection H as <-. eapply s_fail; eauto. now split.
Qed.
Fixpoint runs (s : st) (ls : list lab) : option st :=
  match ls with [] => Some s | l :: r => match exec s l with Some s' => runs s' r | None => None end end.
Lemma runs_reach : forall ls s s', reach s -> runs s ls = Some s' -> reach s'.
Proof.
  induction ls as [|l r IH]; cbn; intros s s' R H; [injection H as <-; auto|].
  destruct (exec s l) as [s1|] eqn:E; [|discriminate]. apply (IH s1); auto. apply (@r_step s); auto. exact (exec_step _ _ _ E).
Qed.
