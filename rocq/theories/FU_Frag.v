(** * Futures: what each fragment does *)
From Verif Require Export MonWake SettleR MonTrace FU_Model FU_Spec.

Notation tst := (tstat fk fop fcv unit).
Definition b2n (b : bool) : nat := if b then 1 else 0.
Definition kw (x : tst) (f : fk -> nat) : nat := match x with Ready _ _ _ k | Asleep _ _ _ k => f k | _ => 0 end.
Definition cnt (f : fk -> nat) (l : list tst) : nat := sumw (fun x => kw x f) l.
Definition isF (k : fk) : nat := match k with KFun _ => 1 | _ => 0 end.

Lemma cnt_upd f x (y : tst) t l : nth_error l t = Some x -> cnt f (upd l t y) + kw x f = cnt f l + kw y f.
Proof. intros H. exact (sumw_upd (fun x => kw x f) y H). Qed.
Lemma cnt_ge f x (t : nat) l : nth_error l t = Some x -> kw x f <= cnt f l.
Proof. intros H. exact (sumw_ge (fun x => kw x f) H). Qed.
Lemma cnt_woken f l l' : woken_rel l l' -> cnt f l' = cnt f l.
Proof. intros H. apply (woken_sumw_eq _ H). intros []; reflexivity. Qed.
Lemma cnt_repeat f n : cnt f (repeat (Idle fk fop fcv tt) n) = 0.
Proof. unfold cnt. rewrite sumw_repeat. simpl. lia. Qed.

(** the calls that may sleep, and those that may call the function *)
Definition waits (op : fop) : bool := match op with OWait | OGetSh | OGet | OGetOr _ | OGetOrSh _ | OWaitUntil | OExcPtr => true | _ => false end.
Definition calls_fun (kd : kind) (op : fop) : bool :=
  match kd, op with
  | KTask, ORun => true
  | KDeferred, (OWait | OGetSh | OGet | OGetOr _ | OGetOrSh _ | OExcPtr | ORunIf _) => true
  | _, _ => false end.
Definition kop (k : fk) : fop :=
  match k with KStart op | KLoop op | KLast op | KFun op | KIntr op => op | KGos w | KGos2 w => OGetOrSh w end.

(** ** The outcome (without reset and without the deferred-notification setters) *)
Definition abs (d : option outc) (s : fst_) : Prop :=
  match d with
  | None => done s = false /\ exc s = None /\ val s = None
  | Some (Val v) => done s = true /\ exc s = None /\ val s = Some v
  | Some (Exc e) => done s = true /\ exc s = Some e
  end.
Definition okk (kd : kind) (s : fst_) (op : fop) (k : fk) : Prop :=
  kop k = op /\
  match k with
  | KStart _ => ops_of kd false false op = true
  | KLoop _ => waits op = true /\ defd s = false
  | KIntr _ => waits op = true
  | KLast _ => op = OWaitUntil
  | KFun _ => calls_fun kd op = true
  | KGos _ | KGos2 _ => done s = true /\ exc s = None
  end.
Definition stat (kd : kind) (s : fst_) (x : tst) : Prop :=
  match x with
  | Idle _ _ _ _ => True
  | Ready _ _ op k => okk kd s op k
  | Asleep _ op _ k => done s = false /\ defd s = false /\ k = KLoop op /\ waits op = true
  | _ => False
  end.
Record nums (kd : kind) (s : fst_) (l : list tst) : Prop := {
  n_fun : cnt isF l + b2n (done s) + b2n (defd s) = match kd with KPromise => b2n (done s) | KTask => b2n (started s) | KDeferred => 1 end;
  n_cons : cons s = false;
  n_def : match kd with KDeferred => True | _ => defd s = false end;
  n_calls : match kd with KPromise => calls s = 0 | KTask => calls s <= b2n (started s) | KDeferred => calls s + b2n (defd s) = 1 end }.

Definition after_d (d : option outc) (t : nat) (op : fop) (o : outcome fk fcv res) : option outc :=
  match o with ORet _ _ r => match d with Some x => Some x | None => decides (EDone t op r) end | _ => d end.

Lemma frag_ok iag al kd d t e k s s' ns o l op h l0 :
  ffrag iag t e k s = (s', ns, o) -> abs d s -> nums kd s l0 -> nth_error l0 t = Some (Ready fcv l op k) -> okk kd s op k ->
  let y := fst (after (fuprog iag al) t l op o h) in
  abs (after_d d t op o) s' /\ stat kd s' y /\ nums kd s' (upd l0 t y) /\
  (done s = true -> done s' = true /\ (exc s = None -> exc s' = None)) /\
  (done s = false -> done s' = true -> In (NAll CWaiters) ns) /\ (defd s = false -> defd s' = false) /\
  match o with ORet _ _ r => legal d op r | OFin _ _ _ | OUB _ _ _ => False | _ => True end.
Proof.
  intros Hf Ha HN Ht [Hop Hk] y. destruct HN as [H1 H2 H3 H4].
  pose proof (cnt_upd isF _ y _ _ Ht) as U. pose proof (cnt_ge isF _ _ _ Ht) as G. cbn [kw] in U, G.
  destruct s as [v x dn cs df vl tk stt cl]. cbn [val exc done cons defd valid taken started calls] in *. subst cs.
  destruct k as [op'|op'|op'|op'|w|w|op']; cbn [kop] in Hop; subst; cbn [isF] in U, G;
  [destruct op, kd; cbn in Hk; try discriminate Hk; try destruct o0|destruct Hk as [Hk Hdf]; destruct op; try discriminate| |destruct op, kd, e; try discriminate | | |destruct op; try discriminate].
  all: assert (Hd : (d = None /\ dn = false /\ x = None /\ v = None) \/ (exists dv, d = Some (Val dv) /\ dn = true /\ x = None /\ v = Some dv) \/ (exists de, d = Some (Exc de) /\ dn = true /\ x = Some de))
    by (destruct d as [[dv|de]|]; cbn in Ha; [right; left; exists dv|right; right; exists de|left]; tauto); clear Ha.
  all: destruct Hd as [(-> & Hd1 & Hd2 & Hd3)|[(dv & -> & Hd1 & Hd2 & Hd3)|(de & -> & Hd1 & Hd2)]]; subst; try discriminate; cbn [b2n] in *.
  all: destruct stt; try destruct df; cbn [b2n] in *; try (exfalso; destruct kd; lia).
  all: destruct iag; cbn [ffrag with_notif] in Hf; unfold wait_part, conclude, take, look, has_value, has_exc, store, mark_done, set_cons, set_valid, set_taken, set_started, begin_call in Hf;
    cbn [val exc done cons defd valid taken started calls andb orb] in Hf.
  all: repeat match type of Hf with context [if ?b then _ else _] => destruct b eqn:? end.
  all: repeat match type of Hf with context [match ?b with Val _ => _ | Exc _ => _ end] => destruct b eqn:? end.
  all: repeat match type of Hf with context [match ?b with None => _ | Some _ => _ end] => destruct b eqn:? end.
  all: cbn [val exc done cons defd valid taken started calls andb orb app] in Hf; try discriminate;
       inversion Hf; subst; try subst y; cbn [after fst snd kw isF fuprog Monitor.next b2n] in *; try (exfalso; lia).
  all: repeat match goal with |- _ /\ _ => split end.
  all: try (cbn; auto; fail).
  all: try (cbn; intros; discriminate).
  all: try (constructor; cbn; try reflexivity; try (destruct kd; auto; cbn; lia); lia).
  all: try (unfold legal; cbn; repeat split; intros; try reflexivity; try congruence; eauto; fail).
  all: destruct Hk; try discriminate.
Qed.


Lemma stat_mono kd s s' (x : tst) : (done s = true -> done s' = true /\ (exc s = None -> exc s' = None)) -> (defd s = false -> defd s' = false) ->
  (done s = false -> done s' = true -> match x with Asleep _ _ _ _ => False | _ => True end) -> stat kd s x -> stat kd s' x.
Proof.
  intros M1 M2 N H. destruct x as [l|l op k|l op c k|l ns|]; simpl in *; auto.
  - destruct H as [H1 H2]. split; auto. destruct k; auto; try tauto; destruct H2 as [A B]; destruct (M1 A); auto.
  - destruct H as (H1 & H2 & H3). split; auto. destruct (done s') eqn:E; auto. destruct (N H1 eq_refl).
Qed.
Lemma stat_wake kd s x : is_asleep x = true -> stat kd s x -> stat kd s (wake x).
Proof. destruct x as [| |l op c k| |]; simpl; try discriminate. intros _ (H1 & H2 & -> & H3). split; simpl; auto. Qed.
