(** * Futures: counting calls of the function, and calls of get *)
From Verif Require Export FU_Frag.

Ltac open_frag Hf :=
  unfold wait_part, conclude, take, look, has_value, has_exc, store, mark_done, set_cons, set_valid, set_taken, set_started, begin_call in Hf;
  cbn [val exc done cons defd valid taken started calls andb orb] in Hf;
  repeat match type of Hf with context [if ?b then _ else _] => destruct b eqn:? end;
  repeat match type of Hf with context [match ?b with Val _ => _ | Exc _ => _ end] => destruct b eqn:? end;
  repeat match type of Hf with context [match ?b with None => _ | Some _ => _ end] => destruct b eqn:? end;
  cbn [val exc done cons defd valid taken started calls andb orb app] in Hf; try discriminate.

(** how often the function has returned, as the history tells *)
Definition ranev (ev : fevent) : nat := match ev with EDone _ _ (Some _, _) => 1 | _ => 0 end.
Fixpoint runs (h : list fevent) : nat := match h with [] => 0 | ev :: h' => ranev ev + runs h' end.
Definition out_k (f : fk -> nat) (o : outcome fk fcv res) : nat := match o with OYield _ _ k' | OSleep _ _ k' => f k' | _ => 0 end.
Definition ran1 (o : outcome fk fcv res) : nat := match o with ORet _ _ (Some _, _) => 1 | _ => 0 end.
Lemma frag_calls iag t e k s s' ns o : ffrag iag t e k s = (s', ns, o) ->
  calls s' + isF k = calls s + ran1 o + out_k isF o.
Proof.
  intros Hf. destruct s as [v x dn cs df vl tk stt cl].
  destruct k as [op|op|op|op|w|w|op]; [destruct op; try destruct o0|destruct op| |destruct op, e| | |]; destruct iag; cbn [ffrag with_notif] in Hf;
  open_frag Hf; inversion Hf; subst; cbn [calls isF ran1 out_k]; lia.
Qed.

Lemma frag_no_fin iag t e k s s' ns o : ffrag iag t e k s = (s', ns, o) -> match o with OFin _ _ _ => False | _ => True end.
Proof.
  intros Hf. destruct s as [v x dn cs df vl tk stt cl].
  destruct k as [op|op|op|op|w|w|op]; [destruct op; try destruct o0|destruct op| |destruct op, e| | |]; destruct iag; cbn [ffrag with_notif] in Hf;
  open_frag Hf; inversion Hf; subst; exact I.
Qed.
Lemma frag_kop iag t e k s s' ns o : ffrag iag t e k s = (s', ns, o) -> match o with OYield _ _ k' => kop k' = kop k | OSleep _ _ k' => k' = KLoop (kop k) | _ => True end.
Proof.
  intros Hf. destruct s as [v x dn cs df vl tk stt cl].
  destruct k as [op|op|op|op|w|w|op]; [destruct op; try destruct o0|destruct op| |destruct op, e| | |]; destruct iag; cbn [ffrag with_notif] in Hf;
  open_frag Hf; inversion Hf; subst; try exact I; reflexivity.
Qed.

Section Additive.
  Variable iag : bool.
  Variable al : fop -> bool.
  Notation P := (fuprog iag al).

  Definition ok0 (x : tst) : Prop :=
    match x with
    | Ready _ _ op k => kop k = op /\ al op = true
    | Asleep _ op _ k => k = KLoop op /\ al op = true
    | Tail _ _ _ _ => False
    | _ => True
    end.
  Lemma ok0_wake x : is_asleep x = true -> ok0 x -> ok0 (wake x).
  Proof. destruct x; simpl; try discriminate. intros _ [-> H]. auto. Qed.
  Lemma ok0_step c c' : Forall ok0 (thr c) -> stepcase P c c' -> Forall ok0 (thr c').
  Proof.
    intros H Hs. destruct Hs as
     [t l op Ht Hp ->|t ps e l op k s' ns o thr' Ht Hfr Hd ->|t p l n ns thr' Ht Hd ->
     |t l op cv k Ht ->|t l op cv k k' Ht Hk ->|t l op cv k k' Ht Hk ->|t l op k k' Ht Hk ->]; cbn [thr].
    - apply Forall_upd; auto. split; auto.
    - pose proof (Forall_nth_error H Ht) as [Hx Ha]. apply Forall_upd; [eapply woken_Forall; [eapply deliver_all_woken; eauto|apply ok0_wake|auto]|].
      cbn [frag fuprog] in Hfr. pose proof (frag_no_fin _ _ _ _ _ _ _ _ Hfr) as F1. pose proof (frag_kop _ _ _ _ _ _ _ _ Hfr) as F2.
      destruct o as [r|r ns'|cv k'|k'|]; simpl in *; auto; try contradiction; [|rewrite F2]; split; auto. congruence.
    - destruct (Forall_nth_error H Ht).
    - apply Forall_upd; auto. exact (ok0_wake (Asleep l op cv k) eq_refl (Forall_nth_error H Ht)).
    - pose proof (Forall_nth_error H Ht) as [-> Ha]. apply Forall_upd; auto. cbn in Hk. destruct op; try discriminate. injection Hk as <-. split; auto.
    - pose proof (Forall_nth_error H Ht) as [-> Ha]. apply Forall_upd; auto. cbn in Hk. injection Hk as <-. split; auto.
    - pose proof (Forall_nth_error H Ht) as [Hx Ha]. apply Forall_upd; auto. cbn in Hk. destruct k; try discriminate. injection Hk as <-. split; auto.
  Qed.
  Lemma ok0_reachable kd n c : reachable P n (finit kd) tt c -> Forall ok0 (thr c).
  Proof.
    apply (reachable_inv P (fun c => Forall ok0 (thr c))).
    - apply Forall_forall. intros x Hx. apply repeat_spec in Hx. subst. exact I.
    - intros c0 c1 H Hs. eapply ok0_step; eauto.
  Qed.

  Variable f : fk -> nat.
  Variable A : fst_ -> nat.
  Variables G1 G2 : fevent -> nat.
  Definition tot (G : fevent -> nat) (h : list fevent) : nat := fold_right (fun ev n => G ev + n) 0 h.
  Definition gout (G : fevent -> nat) (t : nat) (op : fop) (o : outcome fk fcv res) : nat := match o with ORet _ _ r => G (EDone t op r) | _ => 0 end.
  Hypothesis Hcall : forall t op, al op = true -> G1 (ECall res t op) = f (KStart op) + G2 (ECall res t op).
  Hypothesis Hfrag : forall t e k s s' ns o, ffrag iag t e k s = (s', ns, o) -> al (kop k) = true -> o <> OUB fk fcv res ->
    A s' + f k + gout G1 t (kop k) o = A s + out_k f o + gout G2 t (kop k) o.
  Hypothesis Hto : f (KLast OWaitUntil) = f (KLoop OWaitUntil).
  Hypothesis Hin : forall op, f (KIntr op) = f (KLoop op).

  Lemma crashed_step c c' : stepcase P c c' -> In (Crashed fk fop fcv unit) (thr c) -> In (Crashed fk fop fcv unit) (thr c').
  Proof.
    intros Hs Hx. apply In_nth_error in Hx as [i Hi]. apply nth_error_In with (n := i).
    destruct Hs as
     [t l op Ht Hp ->|t ps e l op k s' ns o thr' Ht Hfr Hd ->|t p l n ns thr' Ht Hd ->
     |t l op cv k Ht ->|t l op cv k k' Ht Hk ->|t l op cv k k' Ht Hk ->|t l op k k' Ht Hk ->]; cbn [thr];
    (rewrite nth_error_upd_other; [|intros ->; rewrite Hi in Ht; discriminate]); auto.
    - exact (woken_not_asleep (deliver_all_woken Hd) Hi eq_refl).
    - exact (woken_not_asleep (deliver_woken Hd) Hi eq_refl).
  Qed.
  Lemma additive_step c c' : Forall ok0 (thr c) -> ~ In (Crashed fk fop fcv unit) (thr c') -> A (sh c) + tot G1 (hist c) = cnt f (thr c) + tot G2 (hist c) -> stepcase P c c' ->
    A (sh c') + tot G1 (hist c') = cnt f (thr c') + tot G2 (hist c').
  Proof.
    intros H Hnc HE Hs. destruct Hs as
     [t l op Ht Hp ->|t ps e l op k s' ns o thr' Ht Hfr Hd ->|t p l n ns thr' Ht Hd ->
     |t l op cv k Ht ->|t l op cv k k' Ht Hk ->|t l op cv k k' Ht Hk ->|t l op k k' Ht Hk ->]; cbn [thr sh hist].
    - pose proof (cnt_upd f _ (Ready fcv l op (KStart op)) _ _ Ht) as U. cbn [kw start fuprog] in *. pose proof (Hcall t op Hp). cbn [tot fold_right]. fold (tot G1 (hist c)) (tot G2 (hist c)). lia.
    - pose proof (Forall_nth_error H Ht) as [Hx Ha]. pose proof (deliver_all_woken Hd) as Hw.
      assert (Ht' : nth_error thr' t = Some (Ready fcv l op k)) by (apply (woken_not_asleep Hw Ht); reflexivity).
      cbn [frag fuprog] in Hfr. subst op. assert (Ho : o <> OUB fk fcv res).
      { intros ->. apply Hnc. cbn [thr after fst]. eapply nth_error_In with (n := t). apply nth_error_upd_same. apply nth_error_Some. congruence. }
      pose proof (Hfrag _ _ _ _ _ _ _ Hfr Ha Ho) as HF. pose proof (frag_no_fin _ _ _ _ _ _ _ _ Hfr) as F1.
      pose proof (cnt_upd f _ (fst (after P t l (kop k) o (hist c))) _ _ Ht') as U. rewrite (cnt_woken f _ _ Hw) in U.
      destruct o as [r|r ns'|cv k'|k'|]; try contradiction; try congruence; cbn [after fst snd kw out_k gout fuprog Monitor.next tot fold_right] in *;
        fold (tot G1 (hist c)) (tot G2 (hist c)); lia.
    - destruct (Forall_nth_error H Ht).
    - pose proof (cnt_upd f _ (Ready fcv l op k) _ _ Ht) as U. cbn [kw] in U. lia.
    - pose proof (Forall_nth_error H Ht) as [-> Ha]. pose proof (cnt_upd f _ (Ready fcv l op k') _ _ Ht) as U. cbn [kw] in U.
      cbn in Hk. destruct op; try discriminate. injection Hk as <-. lia.
    - pose proof (Forall_nth_error H Ht) as [-> Ha]. pose proof (cnt_upd f _ (Ready fcv l op k') _ _ Ht) as U. cbn [kw] in U.
      cbn in Hk. injection Hk as <-. pose proof (Hin op). lia.
    - pose proof (cnt_upd f _ (Ready fcv l op k') _ _ Ht) as U. cbn [kw] in U.
      cbn in Hk. destruct k as [|op'| | | | |]; try discriminate. injection Hk as <-. pose proof (Hin op'). lia.
  Qed.
  Lemma additive kd n c : A (finit kd) = 0 -> reachable P n (finit kd) tt c -> ~ In (Crashed fk fop fcv unit) (thr c) ->
    A (sh c) + tot G1 (hist c) = cnt f (thr c) + tot G2 (hist c).
  Proof.
    intros H0 Hr. assert (G : reachable P n (finit kd) tt c -> Forall ok0 (thr c) /\ (~ In (Crashed fk fop fcv unit) (thr c) -> A (sh c) + tot G1 (hist c) = cnt f (thr c) + tot G2 (hist c))); [|apply G; auto].
    clear Hr. apply (reachable_inv P (fun c => Forall ok0 (thr c) /\ (~ In (Crashed fk fop fcv unit) (thr c) -> A (sh c) + tot G1 (hist c) = cnt f (thr c) + tot G2 (hist c)))).
    - split; [apply Forall_forall; intros x Hx; apply repeat_spec in Hx; subst; exact I|]. cbn [sh thr hist init]. rewrite cnt_repeat, H0. reflexivity.
    - intros c0 c1 [H1 H2] Hs. split; [eapply ok0_step; eauto|]. intros Hnc. eapply additive_step; eauto. apply H2. intros Hin'. apply Hnc. eapply crashed_step; eauto.
  Qed.
End Additive.

(** the calls of the function: begun = running + returned *)
Lemma calls_runs iag al kd n c : reachable (fuprog iag al) n (finit kd) tt c -> ~ In (Crashed fk fop fcv unit) (thr c) -> calls (sh c) = cnt isF (thr c) + runs (hist c).
Proof.
  intros Hr Hnc. assert (E : forall h, runs h = tot ranev h) by (induction h; simpl; auto).
  assert (Z : forall h : list fevent, tot (fun _ => 0) h = 0) by (induction h; simpl; auto).
  rewrite E. rewrite <- (Nat.add_0_r (calls (sh c))), <- (Z (hist c)).
  apply (additive iag al isF calls (fun _ => 0) ranev) with (kd := kd) (n := n); auto.
  intros t e k s s' ns o Hf _ _. pose proof (frag_calls _ _ _ _ _ _ _ _ Hf) as HC.
  destruct o as [[[?|] r]|r ns'|cv k'|k'|]; cbn [gout ran1 out_k ranev] in *; lia.
Qed.

(** ** get of a unique future, with BOOST_THREAD_PROVIDES_FUTURE_INVALID_AFTER_GET *)
Definition isG (k : fk) : nat := match k with KLoop OGet | KFun OGet | KIntr OGet | KLast OGet => 1 | _ => 0 end.
Definition inG (k : fk) : nat := match kop k with OGet => 1 | _ => 0 end.
Definition getev (ev : fevent) : nat := match ev with EDone _ OGet (_, RUninit) => 0 | EDone _ OGet _ => 1 | _ => 0 end.
Definition getdone (ev : fevent) : nat := match ev with EDone _ OGet _ => 1 | _ => 0 end.
Definition getcall (ev : fevent) : nat := match ev with ECall _ _ OGet => 1 | _ => 0 end.
Definition noget (op : fop) : bool := match op with OGetOr _ | OReset => false | _ => true end.

Lemma frag_get t e k s s' ns o : ffrag true t e k s = (s', ns, o) -> noget (kop k) = true -> o <> OUB fk fcv res ->
  b2n (negb (valid s')) + isG k = b2n (negb (valid s)) + out_k isG o + gout getev t (kop k) o /\
  inG k + 0 = out_k inG o + gout getdone t (kop k) o /\
  (b2n (taken s') <= b2n (taken s) + gout getev t (kop k) o) /\
  (match o with ORet _ _ (_, RMoved) => taken s = true | _ => True end) /\
  (match o with ORet _ _ (_, RUninit) => valid s = false | _ => True end) /\
  (match o with ORet _ _ (_, RUninit) => True | ORet _ _ _ => inG k = 1 -> isG k = 1 \/ valid s = true | _ => True end).
Proof.
  intros Hf Ha Ho. destruct s as [v x dn cs df vl tk stt cl].
  destruct k as [op|op|op|op|w|w|op]; [destruct op; try discriminate Ha; try destruct o0|destruct op; try discriminate Ha|destruct op; try discriminate Ha|destruct op, e; try discriminate Ha| | |destruct op; try discriminate Ha];
  cbn [ffrag with_notif] in Hf; open_frag Hf; inversion Hf; subst; try congruence; cbn [valid taken isG inG kop out_k gout getev getdone b2n negb] in *; repeat split; auto; try lia; try (destruct tk; cbn; lia); try discriminate.
Qed.
