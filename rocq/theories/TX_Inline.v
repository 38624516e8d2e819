(** * Proofs about inline_executor *)
From Verif Require Import TX_Spec TX_Proofs.
Set Implicit Arguments.

Definition ids (st : list (option nat * list cmd)) : list nat := flat_map (fun x => match fst x with Some i => [i] | None => [] end) st.
Fixpoint shape (st : list (option nat * list cmd)) : Prop :=
  match st with [] => False | (Some _, _) :: st' => shape st' | (None, _) :: st' => st' = [] end.
Definition about1 (x : ithr) : nat := match about x with Some _ => 1 | None => 0 end.

Definition igood (e : ievent) (h : list ievent) : Prop :=
  match e with
  | IAccept t => forall u, ~ In (IClose u) h
  | IBegin t i => (forall u, ~ In (IBegin u i) h) /\ accepts t h = S (begins t h)
  | IEnd t i => hd_error (running t h) = Some i
  | IRefuse t => exists u, In (IClose u) h
  | IQuery t b => b = true <-> exists u, In (IClose u) h
  | IClose t => True
  end.
Fixpoint ihgood (h : list ievent) : Prop := match h with [] => True | e :: h' => igood e h' /\ ihgood h' end.
Lemma ihgood_split e h2 h1 : ihgood (h2 ++ e :: h1) -> igood e h1.
Proof. induction h2 as [|x h2 IH]; cbn; intros [H1 H2]; auto. Qed.

Record IInv (s : icfg) : Prop := MkIInv {
  j_thr : forall t x, nth_error (ithrs s) t = Some x -> shape (stack x) /\ ids (stack x) = running t (ihist s) /\ accepts t (ihist s) = begins t (ihist s) + about1 x;
  j_new : forall t i, In (IBegin t i) (ihist s) -> i < inext s;
  j_closed : iclosed s = true <-> exists u, In (IClose u) (ihist s);
  j_hist : ihgood (ihist s) }.

Definition quiet (e : ievent) : Prop := match e with IBegin _ _ | IEnd _ _ | IAccept _ => False | _ => True end.
Lemma quiet_running e h t : quiet e -> running t (e :: h) = running t h /\ accepts t (e :: h) = accepts t h /\ begins t (e :: h) = begins t h.
Proof. destruct e; cbn; intros H; try contradiction; auto. Qed.
Arguments quiet_running : clear implicits.

Lemma IInv_step s t s' : IInv s -> istep s t = Some s' -> IInv s'.
Proof.
  intros [A B C D] Hs. unfold istep in Hs. destruct (iterm s) eqn:Et; [discriminate|]. destruct (nth_error (ithrs s) t) as [[ab st]|] eqn:Hi; [|discriminate].
  destruct (A _ _ Hi) as (A1 & A2 & A3). cbn [stack about1 about] in *.
  assert (Hoth : forall y (Q : nat -> ithr -> Prop), Q t y -> (forall u x, u <> t -> nth_error (ithrs s) u = Some x -> Q u x) -> forall u x, nth_error (upd (ithrs s) t y) u = Some x -> Q u x).
  { intros y Q Hy Ho u x Hx. destruct (Nat.eq_dec u t) as [->|Hne]; [rewrite (upd_same _ _ _ Hi) in Hx; injection Hx as <-; exact Hy|]. rewrite upd_other in Hx by exact Hne. auto. }
  (* a step that only logs a quiet event, or none *)
  assert (Hquiet : forall e c st', quiet e -> igood e (ihist s) -> c = (match e with IClose _ => true | _ => iclosed s end) -> ab = None -> shape st' -> ids st' = ids st ->
     IInv (MkI c (upd (ithrs s) t (MkT None st')) (inext s) false (e :: ihist s))).
  { intros e c st' Hq Hg Hc -> Hsh Hid. cbn [about1 about] in A3. split; cbn [ithrs ihist inext iclosed].
    - apply Hoth; [|intros u x _ Hx; specialize (A _ _ Hx)]; destruct (quiet_running e (ihist s) t Hq) as (Q1 & Q2 & Q3).
      + cbn [stack]. rewrite Q1, Q2, Q3. split; [auto|]. split; [congruence|]. cbn. lia.
      + destruct (quiet_running e (ihist s) u Hq) as (R1 & R2 & R3). rewrite R1, R2, R3. exact A.
    - intros u i [X|X]; [subst; destruct Hq|eauto].
    - subst c. destruct e; try contradiction; cbn [In]; try (rewrite C; split; intros (u & Hin); exists u; [right|destruct Hin as [X|X]; [discriminate|]]; assumption).
      split; [|auto]. intros _. exists t0. left. reflexivity.
    - cbn. auto. }
  destruct ab as [k|].
  - injection Hs as <-. split; cbn [ithrs ihist inext iclosed].
    + apply Hoth.
      * cbn [stack shape ids flat_map fst app running]. rewrite Nat.eqb_refl. split; [exact A1|]. split; [f_equal; exact A2|].
        unfold accepts, begins in *. cbn [filter length]. rewrite Nat.eqb_refl. cbn [length]. cbn in A3 |- *. lia.
      * intros u x Hne Hx. destruct (A _ _ Hx) as (B1 & B2 & B3). cbn [running]. unfold accepts, begins in *. cbn [filter].
        destruct (Nat.eqb_spec t u); [congruence|]. auto.
    + intros u i [X|X]; [injection X as -> <-; lia|]. specialize (B _ _ X). lia.
    + rewrite C. split; intros (u & Hin); exists u; [right|destruct Hin as [X|X]; [discriminate|]]; assumption.
    + cbn. split; [|exact D]. split; [intros u X; specialize (B _ _ X); lia|]. cbn in A3. lia.
  - destruct st as [|[o b] st']; [discriminate|]. destruct b as [|c r].
    + destruct o as [i|]; [|discriminate]. injection Hs as <-. cbn [shape ids flat_map fst app] in A1, A2. split; cbn [ithrs ihist inext iclosed app].
      * apply Hoth.
        -- cbn [stack running]. rewrite Nat.eqb_refl, <- A2. split; [exact A1|]. split; [reflexivity|]. cbn in A3 |- *. exact A3.
        -- intros u x Hne Hx. destruct (A _ _ Hx) as (B1 & B2 & B3). cbn [running]. destruct (Nat.eqb_spec t u); [congruence|]. auto.
      * intros u j [X|X]; [discriminate|eauto].
      * rewrite C. split; intros (u & Hin); exists u; [right|destruct Hin as [X|X]; [discriminate|]]; assumption.
      * cbn. split; [|exact D]. rewrite <- A2. reflexivity.
    + assert (Hsh : shape ((o, r) :: st')) by (destruct o; exact A1). assert (Hid : ids ((o, r) :: st') = ids ((o, c :: r) :: st')) by reflexivity.
      assert (Hc : iclosed s = true -> exists u, In (IClose u) (ihist s)) by apply C.
      destruct c as [k ct| | |].
      * destruct (iclosed s) eqn:Ec.
        -- assert (X : IInv (MkI true (upd (ithrs s) t (MkT None ((o, r) :: st'))) (inext s) false (IRefuse t :: ihist s))).
           { apply Hquiet; cbn; auto. }
           destruct (ct || match o with Some _ => false | None => true end); [destruct o; injection Hs as <-; exact X|].
           assert (Hs' : Some (MkI true (ithrs s) (inext s) true (IRefuse t :: ihist s)) = Some s') by (destruct o; exact Hs). injection Hs' as <-.
           destruct X as [X1 X2 X3 X4]. split; auto.
        -- assert (Hs' : Some (MkI false (upd (ithrs s) t (MkT (Some k) ((o, r) :: st'))) (inext s) false ([IAccept t] ++ ihist s)) = Some s') by (destruct o; exact Hs). injection Hs' as <-.
           split; cbn [ithrs ihist inext iclosed app].
           ++ apply Hoth.
              ** cbn [stack running]. split; [exact Hsh|]. split; [exact A2|]. unfold accepts, begins in *. cbn [filter]. rewrite Nat.eqb_refl. cbn [length]. cbn in A3 |- *. lia.
              ** intros u x Hne Hx. destruct (A _ _ Hx) as (B1 & B2 & B3). cbn [running]. unfold accepts, begins in *. cbn [filter]. destruct (Nat.eqb_spec t u); [congruence|]. auto.
           ++ intros u j [X|X]; [discriminate|eauto].
           ++ rewrite C. split; intros (u & Hin); exists u; [right|destruct Hin as [X|X]; [discriminate|]]; assumption.
           ++ cbn. split; [|exact D]. intros u X. assert (Y : false = true) by (apply C; eauto). discriminate.
      * assert (Hs' : Some (MkI true (upd (ithrs s) t (MkT None ((o, r) :: st'))) (inext s) false (IClose t :: ihist s)) = Some s') by (destruct o; exact Hs). injection Hs' as <-.
        apply Hquiet; cbn; auto.
      * assert (Hs' : Some (MkI (iclosed s) (upd (ithrs s) t (MkT None ((o, r) :: st'))) (inext s) false ([IQuery t (iclosed s)] ++ ihist s)) = Some s') by (destruct o; exact Hs). injection Hs' as <-.
        apply Hquiet; cbn; auto.
      * destruct o as [i|]; injection Hs as <-.
        -- split; auto.
        -- split; auto. cbn [ithrs ihist app]. apply Hoth; [cbn [stack]; split; [exact Hsh|]; split; [exact A2|cbn in A3 |- *; lia]|auto].
Qed.
Lemma IInv_reach us s : ireach us s -> IInv s.
Proof.
  induction 1 as [|s t s' Hr IH Hs]; [|eapply IInv_step; eauto]. split; cbn.
  - intros t x H. rewrite nth_error_map in H. destruct (nth_error us t); [|discriminate]. injection H as <-. cbn. auto.
  - intros t i [].
  - split; [discriminate|]. intros (u & []).
  - exact I.
Qed.

(** ** Termination and progress *)
Definition isize1 (st : list (option nat * list cmd)) : nat := fold_right (fun x a => 1 + lsize (snd x) + a) 0 st.
Definition tsize (x : ithr) : nat := match about x with Some k => 2 + lsize k | None => 0 end + isize1 (stack x).
Fixpoint tssize (l : list ithr) : nat := match l with [] => 0 | x :: r => tsize x + tssize r end.
Lemma tssize_upd l i x y : nth_error l i = Some y -> tssize (upd l i x) + tsize y = tssize l + tsize x.
Proof. revert i. induction l as [|z l IH]; intros [|i]; cbn [nth_error upd tssize]; intros H; try discriminate; [injection H as ->; lia|]. specialize (IH _ H). lia. Qed.
Definition icsize (s : icfg) : nat := tssize (ithrs s) + (if iterm s then 0 else 1).
Lemma istep_size s t s' : istep s t = Some s' -> icsize s' < icsize s.
Proof.
  intros Hs. unfold istep in Hs. unfold icsize. destruct (iterm s) eqn:Et; [discriminate|]. destruct (nth_error (ithrs s) t) as [[ab st]|] eqn:Hi; [|discriminate].
  assert (HT : forall y, tsize y < tsize (MkT ab st) -> tssize (upd (ithrs s) t y) < tssize (ithrs s)).
  { intros y Hy. pose proof (tssize_upd _ _ y Hi). lia. }
  destruct ab as [k|].
  - injection Hs as <-. cbn [ithrs iterm]. assert (tssize (upd (ithrs s) t (MkT None ((Some (inext s), k) :: st))) < tssize (ithrs s)); [apply HT; unfold tsize; cbn; lia|lia].
  - destruct st as [|[o b] st']; [discriminate|]. destruct b as [|c r].
    + destruct o as [i|]; [|discriminate]. injection Hs as <-. cbn [ithrs iterm]. assert (tssize (upd (ithrs s) t (MkT None st')) < tssize (ithrs s)); [apply HT; unfold tsize; cbn; lia|lia].
    + pose proof (csize_pos c) as Hc.
      assert (H1 : tssize (upd (ithrs s) t (MkT None ((o, r) :: st'))) < tssize (ithrs s)) by (apply HT; unfold tsize; cbn [about stack isize1 fold_right snd lsize]; lia).
      destruct c as [k ct| | |].
      * assert (H2 : tssize (upd (ithrs s) t (MkT (Some k) ((o, r) :: st'))) < tssize (ithrs s)) by (apply HT; unfold tsize; cbn [about stack isize1 fold_right snd lsize]; rewrite csize_submit; lia).
        destruct o; destruct (iclosed s); try destruct (ct || _); injection Hs as <-; cbn [ithrs iterm]; lia.
      * destruct o; injection Hs as <-; cbn [ithrs iterm]; lia.
      * destruct o; injection Hs as <-; cbn [ithrs iterm]; lia.
      * destruct o; injection Hs as <-; cbn [ithrs iterm]; lia.
Qed.
Lemma isteps_size s n s' : isteps s n s' -> n + icsize s' <= icsize s.
Proof. induction 1 as [|s l s1 n s2 H1 H2 IH]; [lia|]. apply istep_size in H1. lia. Qed.

Lemma istep_progress us s t x : ireach us s -> iterm s = false -> nth_error (ithrs s) t = Some x -> x <> MkT None [(None, [])] -> exists s', istep s t = Some s'.
Proof.
  intros Hr Ht Hx Hn. destruct (j_thr (IInv_reach Hr) _ Hx) as (Hsh & _ & _). unfold istep. rewrite Ht, Hx. destruct x as [[k|] st]; [eauto|]. cbn [stack] in Hsh.
  destruct st as [|[o b] st']; [destruct Hsh|]. destruct b as [|c r].
  - destruct o; [eauto|]. cbn in Hsh. subst. congruence.
  - destruct c as [k ct| | |]; destruct o; try destruct (iclosed s); try destruct (ct || _); eauto.
Qed.
