(** * Join and detach: what each fragment does *)
From Verif Require Import MonWake SettleR JN_Model JN_Spec.

Notation tst := (tstat jk jop jcv unit).
Definition b2n (b : bool) : nat := if b then 1 else 0.

(** a program point's claims *)
Definition kw (x : tst) (f : jk -> nat) : nat := match x with Ready _ _ _ k | Asleep _ _ _ k => f k | _ => 0 end.
Definition rw (k : jk) : nat :=
  match k with JEnter _ | JWaitDone _ | JDeadline | JWaitJoined | JOs | JOsWait | JSet | JReset | JDrop _ | DLock => 1 | _ => 0 end.
Definition isA k := match k with JOs => 1 | _ => 0 end.
Definition isB k := match k with JOsWait => 1 | _ => 0 end.
Definition isC k := match k with JSet => 1 | _ => 0 end.
Definition isD k := match k with DLock => 1 | _ => 0 end.
Definition isE k := match k with JBegin ODetach | DLock => 1 | _ => 0 end.
Definition t1 k := match k with TFun => 1 | _ => 0 end.
Definition t2 k := match k with THandlers => 1 | _ => 0 end.
Definition t3 k := match k with TDone => 1 | _ => 0 end.
Definition t4 k := match k with TRef => 1 | _ => 0 end.
Definition t5 k := match k with TTerm => 1 | _ => 0 end.

Definition okk (s : jst) (op : jop) (k : jk) : Prop :=
  match k with
  | JOs | JOsWait => dn s = true
  | JWaitJoined => js s = true /\ dn s = true
  | JSet => dn s = true /\ ph s = 6
  | JReset => jd s = true /\ dn s = true
  | JDrop RJoined => jd s = true /\ dn s = true
  | JDrop RVoid => js s = true
  | JBegin op' => op' = op
  | DLock => op = ODetach
  | _ => True
  end.
Definition stat (s : jst) (x : tst) : Prop :=
  match x with
  | Idle _ _ _ _ => True
  | Ready _ _ op k => okk s op k
  | Asleep _ op COs k => k = JOsWait /\ ph s <> 6 /\ okk s op k
  | Asleep _ op CDone (JWaitDone _) => dn s = false
  | Asleep _ op CDone JWaitJoined => js s = true /\ jd s = false /\ dn s = true
  | _ => False
  end.

Definition cnt (f : jk -> nat) (l : list tst) : nat := sumw (fun x => kw x f) l.

Record Nums (s : jst) (l : list tst) : Prop := {
  n_refs : refs s = b2n (obj s) + b2n (ph s <? 5) + cnt rw l;
  n_fired : fired s = if refs s =? 0 then 1 else 0;
  n_js0 : cnt isA l + osn s = b2n (js s);
  n_js1 : cnt isA l + cnt isB l + cnt isC l + b2n (jd s) = b2n (js s);
  n_dn : dn s = (4 <=? ph s);
  n_ph : ph s <= 6;
  n_t1 : cnt t1 l = b2n (ph s =? 1);
  n_t2 : cnt t2 l = b2n (ph s =? 2);
  n_t3 : cnt t3 l = b2n (ph s =? 3);
  n_t4 : cnt t4 l = b2n (ph s =? 4);
  n_t5 : cnt t5 l = b2n (ph s =? 5);
  n_obj : 1 <= b2n (obj s) + b2n (js s) + cnt isD l
}.

Lemma cnt_upd f x (y : tst) t l : nth_error l t = Some x -> cnt f (upd l t y) + kw x f = cnt f l + kw y f.
Proof. intros H. exact (sumw_upd (fun x => kw x f) y H). Qed.
Lemma cnt_ge f x (t : nat) l : nth_error l t = Some x -> kw x f <= cnt f l.
Proof. intros H. exact (sumw_ge (fun x => kw x f) H). Qed.
Lemma cnt_woken f l l' : woken_rel l l' -> cnt f l' = cnt f l.
Proof. intros H. apply (woken_sumw_eq _ H). intros []; reflexivity. Qed.

Record Inv (c : jnconf) : Prop := {
  i_stat : Forall (stat (sh c)) (thr c);
  i_nums : Nums (sh c) (thr c);
  i_join : some_join_succeeded c -> jd (sh c) = true /\ dn (sh c) = true;
  i_det : 0 < cnt isE (thr c) -> detach_called c;
  i_jd : jd (sh c) = true -> ph (sh c) = 6 \/ detach_called c
}.

Lemma stat_wake s x : is_asleep x = true -> stat s x -> stat s (wake x).
Proof. destruct x as [| |l op c k| |]; simpl; try discriminate. intros _. destruct c, k; simpl; intuition. Qed.

(** What a fragment does. *)
Definition mono (s s' : jst) : Prop :=
  ph s <= ph s' /\ (dn s = true -> dn s' = true) /\ (js s = true -> js s' = true) /\ (jd s = true -> jd s' = true).

Lemma frag_ok t e k s s' ns o l op h l0 :
  jfrag t e k s = (s', ns, o) -> Nums s l0 -> nth_error l0 t = Some (Ready jcv l op k) -> okk s op k ->
  let y := fst (after jnprog t l op o h) in
  stat s' y /\ Nums s' (upd l0 t y) /\ mono s s' /\
  (dn s = false -> dn s' = true -> In (NAll CDone) ns) /\
  (js s = true -> jd s = false -> jd s' = true -> In (NAll CDone) ns) /\
  (ph s <> 6 -> ph s' = 6 -> In (NAll COs) ns) /\
  (ph s = 6 -> ph s' = 6) /\
  (forall r, o = ORet jk jcv r -> r = RJoined -> jd s' = true /\ dn s' = true) /\
  (match o with OFin _ _ _ => False | _ => True end) /\
  (jd s = false -> jd s' = true -> ph s' = 6 \/ k = DLock) /\
  kw y isE <= isE k.
Proof.
  intros Hf HN Ht Hk y. destruct HN as [H1 H2 H3 H4 H5 H6 H7 H8 H9 H10 H11 H12].
  pose proof (fun f => cnt_upd f _ y _ _ Ht) as HU. pose proof (fun f => cnt_ge f _ _ _ Ht) as HG. cbn [kw] in HU, HG.
  pose proof (HU rw) as Ur. pose proof (HU isA) as UA. pose proof (HU isB) as UB. pose proof (HU isC) as UC. pose proof (HU isD) as UD.
  pose proof (HU t1) as U1. pose proof (HU t2) as U2. pose proof (HU t3) as U3. pose proof (HU t4) as U4. pose proof (HU t5) as U5.
  pose proof (HG rw) as Gr. pose proof (HG isA) as GA. pose proof (HG isB) as GB. pose proof (HG isC) as GC.
  pose proof (HG t1) as G1. pose proof (HG t2) as G2. pose proof (HG t3) as G3. pose proof (HG t4) as G4. pose proof (HG t5) as G5. clear HU HG.
  destruct s as [p d j jn os ob rf fi fo]; cbn [ph dn js jd osn obj refs fired fown] in *.
  assert (Hp : p = 0 \/ p = 1 \/ p = 2 \/ p = 3 \/ p = 4 \/ p = 5 \/ p = 6) by lia.
  subst d.
  destruct k; try destruct op0; cbn [jfrag] in Hf; unfold seen_done, drop_ref, set_ph in Hf; cbn [ph dn js jd osn obj refs fired fown] in Hf;
    repeat match type of Hf with context [if ?b then _ else _] => destruct b eqn:? end; inversion Hf; subst s' ns o; subst y;
    cbn [after fst snd kw rw isA isB isC isD isE t1 t2 t3 t4 t5 jnprog Monitor.next] in *;
    destruct Hp as [->|[->|[->|[->|[->|[->| ->]]]]]]; cbn [b2n Nat.leb Nat.ltb Nat.eqb] in *; try discriminate; try (exfalso; lia).
  all: repeat match goal with
       | H : (_ =? _) = true |- _ => apply Nat.eqb_eq in H
       | H : (_ =? _) = false |- _ => apply Nat.eqb_neq in H
       end; subst; cbn [b2n okk ph dn js jd osn obj refs fired fown stat] in *; try (exfalso; lia).
  all: unfold mono; cbn [ph dn js jd osn obj refs fired fown]; repeat match goal with |- _ /\ _ => split end.
  all: try (lia || (intros; discriminate) || (simpl; auto; fail) || (intros; subst; simpl in *; auto; intuition congruence)).
  all: try (constructor; cbn [ph dn js jd osn obj refs fired fown b2n Nat.leb Nat.ltb Nat.eqb] in *;
       try reflexivity; try lia;
       repeat match goal with |- context [if ?a =? ?b then _ else _] => destruct (Nat.eqb_spec a b) end; 
       repeat match goal with H : context [if ?a =? ?b then _ else _] |- _ => destruct (Nat.eqb_spec a b) end; try lia;
       repeat match goal with b : bool |- _ => destruct b end; cbn [b2n] in *; lia).
  all: try (destruct j; cbn [b2n] in *; auto; exfalso; lia).
  all: intros r0 Er ->; injection Er as ->; exact Hk.
Qed.

