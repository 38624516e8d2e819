(** * Runs of the Windows shared_mutex (for the examples in XV_Props.v): an executable form of [step] *)
From Verif Require Import WS_Errors XV_Model XV_Spec.
Set Implicit Arguments.

(** [XRun t i]: thread [t] makes the next step of its call; if that reads the word, it reads the [i]-th newest
    write. *)
Inductive lab := XCall (t : nat) (o : op) | XLate (t : nat) | XUse (t : nat) (w : bool) | XSync (t t' : nat) | XRun (t i : nat).
Definition free_tsb (ms : list msg) (n : nat) : bool := forallb (fun m => negb (m_ts m =? n)) ms.
Definition xexec (s : st) (l : lab) : option st :=
  match l with
  | XCall t o => match exec (base s) (LCall t o) with Some b' => Some (MkSt b' (mem s) (vw s) (spv s) (log s) (nexte s)) | None => None end
  | XLate t => match exec (base s) (LTimeout t) with Some b' => Some (MkSt b' (mem s) (vw s) (spv s) (log s) (nexte s)) | None => None end
  | XUse t w =>
      match nth_error (thrs (base s)) t with
      | Some (Thr PIdle m) =>
          if negb (mode_eqb m MNone) && (negb w || mode_eqb m MExcl) then
            Some (MkSt (base s) (mem s) (upd (vw s) t (see (vw s t) (nexte s))) (spv s) (EvUse t (nexte s) w (v_see (vw s t)) :: log s) (S (nexte s)))
          else None
      | _ => None
      end
  | XSync t t' =>
      match nth_error (thrs (base s)) t with
      | Some (Thr PIdle m) => Some (MkSt (base s) (mem s) (upd (vw s) t (join (vw s t) (vw s t'))) (spv s) (log s) (nexte s))
      | _ => None
      end
  | XRun t i =>
      match nth_error (thrs (base s)) t with
      | None => None
      | Some x =>
          match uses (t_pc x) with
          | UNone => match exec (base s) (LRun t) with Some b' => Some (MkSt b' (mem s) (vw s) (spv s) (log s) (nexte s)) | None => None end
          | UPost n => match exec (base s) (LRun t) with Some b' => Some (MkSt b' (mem s) (vw s) (repeat (vw s t) n ++ spv s) (log s) (nexte s)) | None => None end
          | UPend =>
              match exec (base s) (LRun t), spv s with
              | Some b', v :: q => Some (MkSt b' (mem s) (upd (vw s) t (join (vw s t) v)) q (log s) (nexte s))
              | _, _ => None
              end
          | ULoad =>
              match nth_error (mem s) i with
              | None => None
              | Some m =>
                  if v_ts (vw s t) <=? m_ts m then
                    match exec (with_wd (base s) (m_val m)) (LRun t) with
                    | Some b' => Some (MkSt (with_wd b' (wd (base s))) (mem s) (upd (vw s) t (raise (vw s t) (m_ts m))) (spv s) (log s) (nexte s))
                    | None => None
                    end
                  else None
              end
          | UCas old =>
              match nth_error (mem s) i with
              | None => None
              | Some m =>
                  if v_ts (vw s t) <=? m_ts m then
                    match exec (with_wd (base s) (m_val m)) (LRun t) with
                    | Some b' =>
                        if word_eqb (m_val m) old then
                          if free_tsb (mem s) (S (m_ts m)) then
                            let v := raise (join (raise (vw s t) (m_ts m)) (m_view m)) (S (m_ts m)) in
                            Some (MkSt b' (MkMsg (S (m_ts m)) (wd b') v :: mem s) (upd (vw s) t v) (spv s) (log s) (nexte s))
                          else None
                        else Some (MkSt (with_wd b' (wd (base s))) (mem s) (upd (vw s) t (join (raise (vw s t) (m_ts m)) (m_view m))) (spv s) (log s) (nexte s))
                    | None => None
                    end
                  else None
              end
          end
      end
  end.
Lemma xexec_step : forall s l s', xexec s l = Some s' -> step s s'.
Proof.
  intros s l s' H. destruct l as [t o|t|t w|t t'|t i]; cbn [xexec] in H.
  - destruct (exec (base s) (LCall t o)) as [b'|] eqn:E; [|discriminate]. injection H as <-. eapply s_call; eauto.
  - destruct (exec (base s) (LTimeout t)) as [b'|] eqn:E; [|discriminate]. injection H as <-. eapply s_late; eauto.
  - destruct (nth_error (thrs (base s)) t) as [[[] m]|] eqn:E; try discriminate.
    destruct (negb (mode_eqb m MNone) && (negb w || mode_eqb m MExcl)) eqn:K; [|discriminate]. injection H as <-.
    apply andb_true_iff in K. destruct K as [K1 K2]. eapply s_use; eauto.
    + intros ->. discriminate.
    + intros ->. destruct m; try discriminate. reflexivity.
  - destruct (nth_error (thrs (base s)) t) as [[[] m]|] eqn:E; try discriminate. injection H as <-. eapply s_sync; eauto.
  - destruct (nth_error (thrs (base s)) t) as [x|] eqn:E; [|discriminate]. destruct (uses (t_pc x)) as [| |old|n|] eqn:U.
    + destruct (exec (base s) (LRun t)) as [b'|] eqn:R; [|discriminate]. injection H as <-. eapply s_none; eauto.
    + destruct (nth_error (mem s) i) as [m|] eqn:M; [|discriminate]. destruct (v_ts (vw s t) <=? m_ts m) eqn:L; [|discriminate].
      destruct (exec _ (LRun t)) as [b'|] eqn:R; [|discriminate]. injection H as <-. eapply s_load; eauto.
      split; [now apply nth_error_In in M|now apply Nat.leb_le].
    + destruct (nth_error (mem s) i) as [m|] eqn:M; [|discriminate]. destruct (v_ts (vw s t) <=? m_ts m) eqn:L; [|discriminate].
      destruct (exec _ (LRun t)) as [b'|] eqn:R; [|discriminate].
      assert (Q : reads (mem s) (vw s t) m) by (split; [now apply nth_error_In in M|now apply Nat.leb_le]).
      destruct (word_eqb (m_val m) old) eqn:W.
      * destruct (free_tsb (mem s) (S (m_ts m))) eqn:F; [|discriminate]. injection H as <-. eapply s_cas; eauto.
        intros m' Hm' Em. unfold free_tsb in F. rewrite forallb_forall in F. specialize (F m' Hm'). rewrite Em, Nat.eqb_refl in F. discriminate.
      * injection H as <-. eapply s_fail; eauto.
    + destruct (exec (base s) (LRun t)) as [b'|] eqn:R; [|discriminate]. injection H as <-. eapply s_post; eauto.
    + destruct (exec (base s) (LRun t)) as [b'|] eqn:R; [|discriminate]. destruct (spv s) as [|v q] eqn:V; [discriminate|]. injection H as <-.
      change q with ([] ++ q). eapply s_pend; eauto.
Qed.
Fixpoint xruns (s : st) (ls : list lab) : option st :=
  match ls with [] => Some s | l :: r => match xexec s l with Some s' => xruns s' r | None => None end end.
Lemma xruns_reaches : forall n ls s s', reaches n s -> xruns s ls = Some s' -> reaches n s'.
Proof.
  intros n. induction ls as [|l r IH]; intros s s' R H; cbn in H; [now injection H as <-|].
  destruct (xexec s l) as [s1|] eqn:E; [|discriminate]. eapply IH; [|exact H]. eapply x_step; [exact R|]. eapply xexec_step; eauto.
Qed.

(** Thread 0 locks, writes and unlocks; thread 1 begins lock_shared() with the stale locked word, fails to
    exchange it, and succeeds with the newest; then it reads the data. *)
Definition run_write : list lab :=
  [XCall 0 Lock; XRun 0 0; XRun 0 0; XUse 0 true; XCall 0 Unlock; XRun 0 0; XRun 0 0; XRun 0 0].
Definition run_share : list lab := run_write ++ [XCall 1 LockShared; XRun 1 1; XRun 1 0; XRun 1 0; XUse 1 false].
(** Thread 0 owns upgrade ownership and reads; thread 1 shares it and reads; thread 0 upgrades and waits; thread 1
    unlocks and lets it in; thread 0 writes. *)
Definition run_upgrade : list lab :=
  [XCall 0 LockUpgrade; XRun 0 0; XRun 0 0; XUse 0 false; XCall 1 LockShared; XRun 1 0; XRun 1 0; XUse 1 false;
   XCall 0 UnlockUpgradeAndLock; XRun 0 0; XRun 0 0; XCall 1 UnlockShared; XRun 1 0; XRun 1 0; XRun 1 0; XRun 1 0;
   XRun 0 0; XUse 0 true].
(** Thread 1 tries after [run_write], with the stale locked word; or after it has synchronised with thread 0. *)
Definition run_try : list lab := [XCall 1 TryLock; XRun 1 1; XRun 1 0].
Definition run_synced : list lab := run_write ++ [XSync 1 0].
(** Thread 0 locks; thread 1 begins lock() with the stale free word, fails to exchange it, and waits. *)
Definition run_wait : list lab := [XCall 0 Lock; XRun 0 0; XRun 0 0; XCall 1 Lock; XRun 1 1; XRun 1 0; XRun 1 0].
