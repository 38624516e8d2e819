(** * Proofs about the results of completion_latch (CL_Model.v), also with reset and interruption *)

From Verif Require Import MonTrace CL_Model CL_Spec.

Section Res.
  Variable intr : bool.
  Notation P := (clprog intr).

  Definition rok (s' : clatch) (r : cres) : Prop :=
    match r with
    | CBool b => b = (c_count s' =? 0)
    | CTimeout b => b = negb (c_count s' =? 0)
    | _ => True
    end.
  Definition opok (op : cop) (s' : clatch) (r : cres) : Prop :=
    rok s' r /\
    match op, r with
    | CWait, CVoid | CSync, CVoid => c_count s' = 0
    | CReset n, _ => c_count s' = n
    | _, _ => True
    end.

  (** The function a step leaves behind and the one it reports. *)
  Definition fpost (s : clatch) (s' : clatch) (op : cop) (r : cres) : Prop :=
    match op with
    | CThen f => r = CFun (c_funct s) /\ c_funct s' = f
    | _ => c_funct s' = c_funct s /\
           match r with CCompleted g => g = c_funct s | CFun _ => False | _ => True end
    end.

  Definition kop (op : cop) (k : ck) : Prop :=
    match k with
    | CStart o => o = op
    | CEnter o | CInside o | CBody o => o = op /\ (c_waits op = true \/ op = CSync)
    | CDeadline => op = CWaitTimed
    | CBodyIntr => c_waits op = true \/ op = CSync
    | CFirst | CSecond => c_counts op = true
    | CIntr => match op with CThen _ | CReset _ => False | _ => True end
    end.

  Definition post (s : clatch) (op : cop) (o : cout) : Prop :=
    let '(s', _, o') := o in
    match o' with
    | ORet _ _ r => opok op s' r /\ fpost s s' op r
    | OFin _ _ _ => False
    | OSleep _ _ k => kop op k /\ c_funct s' = c_funct s
    | OYield _ _ _ => False
    | OUB _ _ _ => c_funct s' = c_funct s
    end.

  Lemma post_body s0 s op : c_waits op = true \/ op = CSync -> c_funct s = c_funct s0 -> post s0 op (c_body op s).
  Proof.
    intros Hw Hf. destruct op; destruct Hw as [Hw|Hw]; try discriminate Hw; unfold c_body, c_leave_with;
      destruct (c_count s =? 0) eqn:E; cbn; unfold opok, rok, fpost; cbn; rewrite ?E;
      try (apply Nat.eqb_eq in E); repeat split; auto.
  Qed.

  Lemma post_inside s0 s op : c_waits op = true \/ op = CSync -> c_funct s = c_funct s0 -> post s0 op (c_inside op s).
  Proof.
    intros Hw Hf. unfold c_inside. destruct (c_leave s =? 0); [|apply post_body; auto]. cbn. auto.
  Qed.

  Lemma post_enter s0 s op : c_waits op = true \/ op = CSync -> c_funct s = c_funct s0 -> post s0 op (c_enter op s).
  Proof.
    intros Hw Hf. unfold c_enter. destruct (c_leave s =? 0); [|cbn; auto].
    pose proof (@post_inside s0 (MkCL (c_count s) (S (c_wait s)) (c_leave s) (c_funct s)) op Hw Hf) as H.
    destruct (c_inside op _) as [[s2 ns] o]. exact H.
  Qed.

  Lemma post_second s0 s op : c_counts op = true -> c_funct s = c_funct s0 -> post s0 op (c_second s).
  Proof.
    intros Hc Hf. unfold c_second. destruct (c_wait s =? 0); [|cbn; auto].
    destruct op; try discriminate Hc; cbn; repeat split; auto.
  Qed.

  Lemma post_first s0 s op : c_counts op = true -> c_funct s = c_funct s0 -> post s0 op (c_first s).
  Proof.
    intros Hc Hf. unfold c_first. destruct (c_wait s =? 0); [cbn; auto|].
    pose proof (@post_second s0 (MkCL (c_count s) (c_wait s) (c_wait s) (c_funct s)) op Hc Hf) as H.
    destruct (c_second _) as [[s2 ns] o]. exact H.
  Qed.

  Lemma post_frag t e op k s : kop op k -> post s op (frag P t e k s).
  Proof.
    intros Hk. cbn [frag clprog]. unfold cfrag. destruct k as [o|o|o|o| | | | |].
    - cbn in Hk. subst o. destruct op as [| | | | |n|f].
      + apply post_enter; auto.
      + apply post_enter; auto.
      + apply post_enter; auto.
      + destruct (c_count s) as [|n]; [reflexivity|].
        destruct (n =? 0); [apply post_first; auto|cbn; repeat split; auto].
      + destruct (c_count s) as [|n]; [reflexivity|].
        destruct (n =? 0); [apply post_first; auto|apply post_enter; auto].
      + cbn. repeat split; auto.
      + cbn. repeat split; auto.
    - destruct Hk as [-> Hk]. apply post_enter; auto.
    - destruct Hk as [-> Hk]. apply post_inside; auto.
    - destruct Hk as [-> Hk]. apply post_body; auto.
    - cbn in Hk. subst op. unfold c_leave_with. cbn. repeat split; auto.
    - cbn in Hk. unfold c_leave_with. destruct op; destruct Hk as [Hk|Hk]; try discriminate Hk; cbn; repeat split; auto.
    - apply post_first; auto.
    - apply post_second; auto.
    - cbn in Hk. destruct op; try contradiction Hk; cbn; repeat split; auto.
  Qed.

  Definition tok (x : tstat ck cop ccv unit) : Prop :=
    match x with Ready _ _ op k | Asleep _ op _ k => kop op k | Tail _ _ _ _ => False | _ => True end.

  Lemma tok_timeout op k k' : kop op k -> c_timeout k = Some k' -> kop op k'.
  Proof. destruct k as [o|o|o|[]| | | | |]; cbn; try discriminate. intros [<- _] H. injection H as <-. reflexivity. Qed.
  Lemma tok_intr op k k' : kop op k -> c_intr intr k = Some k' -> kop op k'.
  Proof.
    unfold c_intr. destruct intr; [|discriminate].
    destruct k; cbn; try discriminate; intros Hk H; injection H as <-; cbn.
    - destruct Hk as [-> [Hk| ->]]; [destruct op; try discriminate Hk|]; exact I.
    - destruct Hk as [-> [Hk| ->]]; [destruct op; try discriminate Hk|]; exact I.
    - apply Hk.
    - destruct op; try discriminate Hk; exact I.
    - destruct op; try discriminate Hk; exact I.
  Qed.

  Definition RInv (f : nat) (c : clconf) : Prop := Forall tok (thr c) /\ c_funct (sh c) = stored f (hist c).

  Lemma woken_tok l l' : woken_rel l l' -> Forall tok l -> Forall tok l'.
  Proof.
    intros Hw HF. eapply woken_Forall; [exact Hw| |exact HF]. intros x _ Hx. destruct x; cbn in *; auto.
  Qed.

  Lemma RInv_step f c c' : RInv f c -> stepcase P c c' ->
    RInv f c' /\ forall t op r, hist c' = EDone t op r :: hist c ->
      opok op (sh c') r /\ fpost (sh c) (sh c') op r.
  Proof.
    intros [HF Hf] Hs.
    assert (Hcyc : forall (h : list cevent) ev, h <> ev :: h)
      by (intros h ev Hh; apply (f_equal (@length _)) in Hh; cbn in Hh; lia).
    destruct Hs as
     [t l op Ht Hp ->|t ps e l op k s' ns o thr' Ht Hfr Hd ->|t p l m ns thr' Ht Hd ->
     |t l op cv k Ht ->|t l op cv k k' Ht Hk ->|t l op cv k k' Ht Hk ->|t l op k k' Ht Hk ->]; cbn [sh thr hist].
    - split; [split; [apply Forall_upd; [exact HF|reflexivity]|exact Hf]|]. intros; discriminate.
    - pose proof (Forall_nth_error HF Ht) as Hk. cbn in Hk.
      pose proof (@post_frag t e op k (sh c) Hk) as Hp. rewrite Hfr in Hp. cbn in Hp.
      assert (HF' : Forall tok thr') by (eapply woken_tok; [eapply deliver_all_woken; eauto|exact HF]).
      destruct o as [r|r ns'|cv k'|k'|]; cbn [after fst snd]; try contradiction Hp.
      + destruct Hp as [Ho Hfp]. split.
        * split; [apply Forall_upd; [exact HF'|exact I]|]. cbn [sh hist].
          destruct op; cbn in Hfp |- *; try (destruct Hfp as [-> _]; exact Hf). destruct Hfp as [_ ->]. reflexivity.
        * intros t' op' r' E. injection E as <- <- <-. auto.
      + destruct Hp as [Hk' Hf']. split; [split; [apply Forall_upd; [exact HF'|exact Hk']|cbn; congruence]|].
        intros t' op' r' E. destruct (Hcyc _ _ E).
      + split; [split; [apply Forall_upd; [exact HF'|exact I]|cbn; congruence]|].
        intros t' op' r' E. destruct (Hcyc _ _ E).
    - destruct (Forall_nth_error HF Ht).
    - split; [split; [apply Forall_upd; [exact HF|exact (Forall_nth_error HF Ht)]|exact Hf]|].
      intros t' op' r' E. destruct (Hcyc _ _ E).
    - split; [split; [apply Forall_upd; [exact HF|exact (@tok_timeout op k k' (Forall_nth_error HF Ht) Hk)]|exact Hf]|].
      intros t' op' r' E. destruct (Hcyc _ _ E).
    - split; [split; [apply Forall_upd; [exact HF|exact (@tok_intr op k k' (Forall_nth_error HF Ht) Hk)]|exact Hf]|].
      intros t' op' r' E. destruct (Hcyc _ _ E).
    - split; [split; [apply Forall_upd; [exact HF|exact (@tok_intr op k k' (Forall_nth_error HF Ht) Hk)]|exact Hf]|].
      intros t' op' r' E. destruct (Hcyc _ _ E).
  Qed.

  Lemma RInv_reachable threads count f c : reachable P threads (clatch_new count f) tt c -> RInv f c.
  Proof.
    revert c. apply reachable_ind'.
    - split; [|reflexivity]. apply Forall_forall. intros x Hx. apply repeat_spec in Hx. subst x. exact I.
    - intros c c' _ HI Hs. apply (RInv_step _ _ _ HI Hs).
  Qed.

  Lemma results threads count f c c' lb t op r :
    reachable P threads (clatch_new count f) tt c -> step P c lb = Some c' -> hist c' = EDone t op r :: hist c ->
    opok op (sh c') r /\ fpost (sh c) (sh c') op r /\ c_funct (sh c) = stored f (hist c).
  Proof.
    intros Hr Hs Hh. pose proof (RInv_reachable _ _ _ _ Hr) as HI. apply step_inv in Hs.
    destruct (RInv_step _ _ _ HI Hs) as [_ H]. destruct (H t op r Hh) as [H1 H2]. destruct HI as [_ HI]. auto.
  Qed.

  Lemma functions threads count f c t op r h1 h2 :
    reachable P threads (clatch_new count f) tt c -> hist c = h1 ++ EDone t op r :: h2 ->
    (forall g, op = CThen g -> r = CFun (stored f h2)) /\ (forall g, r = CCompleted g -> g = stored f h2).
  Proof.
    intros Hr Hh. destruct (event_step _ _ _ _ Hr Hh) as (c1 & lb & c2 & H1 & H2 & H3 & H4 & _).
    rewrite <- H3 in H4. destruct (results _ _ _ _ _ _ _ _ _ H1 H2 H4) as (_ & Hf & Hs). rewrite H3 in Hs. rewrite <- Hs.
    split.
    - intros g ->. apply Hf.
    - intros g ->. destruct op; cbn in Hf; try apply Hf. destruct Hf as [Hf _]. discriminate Hf.
  Qed.
End Res.
