(** * Proofs about the lock algorithms *)

From Verif Require Export LA_Spec.
Set Implicit Arguments.
Local Open Scope Z_scope.

Definition cnt := nat -> Z.
Definition c0 : cnt := fun _ => 0.
Definition c1 (m : nat) : cnt := fun x => if Nat.eqb m x then 1 else 0.

(** What the caller holds when about to do [a]; [blk]: may the program block? *)
Definition pend_ok (blk : bool) (base : cnt) (a : act) (tr : trace) : Prop :=
  match a with
  | ALock _ => blk = true /\ forall x, held x tr = base x
  | AUnlock m => 0 < held m tr
  | ATry _ => True
  end.

Definition spec {A} (blk : bool) (m : M A) (pre : cnt) (post : A -> cnt) (exn : cnt) : Prop :=
  forall h tr base, unlocks_held tr -> (forall x, 0 <= base x) -> (forall x, held x tr = base x + pre x) ->
  match m h tr with
  | Val a _ tr' => unlocks_held tr' /\ forall x, held x tr' = base x + post a x
  | Exn _ tr' => unlocks_held tr' /\ forall x, held x tr' = base x + exn x
  | Pend a tr' => unlocks_held tr' /\ pend_ok blk base a tr'
  | OutOfFuel => True
  end.

Lemma spec_ret A blk (a : A) pre post exn : (forall x, pre x = post a x) -> spec blk (ret a) pre post exn.
Proof. intros H h tr base Hu Hb Hh. simpl. split; auto. intros x. now rewrite Hh, H. Qed.

Lemma spec_bind A B blk (m : M A) (f : A -> M B) pre mid post exn :
  spec blk m pre mid exn -> (forall a, spec blk (f a) (mid a) post exn) -> spec blk (bind m f) pre post exn.
Proof.
  intros Hm Hf h tr base Hu Hb Hh. unfold bind. specialize (Hm h tr base Hu Hb Hh).
  destruct (m h tr) as [a h' tr'|h' tr'|a tr'|]; auto.
  destruct Hm as [Hu' Hh']. exact (Hf a h' tr' base Hu' Hb Hh').
Qed.

Lemma spec_conseq A blk (m : M A) pre post exn pre' post' exn' :
  spec blk m pre post exn -> (forall x, pre' x = pre x) -> (forall a x, post a x = post' a x) -> (forall x, exn x = exn' x) ->
  spec blk m pre' post' exn'.
Proof.
  intros Hm H1 H2 H3 h tr base Hu Hb Hh.
  assert (Hh' : forall x, held x tr = base x + pre x) by (intros x; rewrite <- H1; auto).
  specialize (Hm h tr base Hu Hb Hh').
  destruct (m h tr) as [a h' tr'|h' tr'|a tr'|]; auto.
  - destruct Hm as [Hu' Hq]. split; auto. intros x. now rewrite <- H2.
  - destruct Hm as [Hu' Hq]. split; auto. intros x. now rewrite <- H3.
Qed.

Lemma spec_frame A blk (m : M A) pre post exn c :
  spec false m pre post exn -> (forall x, 0 <= c x) ->
  spec blk m (fun x => pre x + c x) (fun a x => post a x + c x) (fun x => exn x + c x).
Proof.
  intros Hm Hc h tr base Hu Hb Hh.
  specialize (Hm h tr (fun x => base x + c x) Hu).
  assert (H0 : forall x, 0 <= base x + c x) by (intros x; specialize (Hb x); specialize (Hc x); lia).
  assert (H1 : forall x, held x tr = base x + c x + pre x) by (intros x; rewrite Hh; lia).
  specialize (Hm H0 H1).
  destruct (m h tr) as [a h' tr'|h' tr'|a tr'|]; auto.
  - destruct Hm as [Hu' Hq]. split; auto. intros x. rewrite Hq. lia.
  - destruct Hm as [Hu' Hq]. split; auto. intros x. rewrite Hq. lia.
  - destruct Hm as [Hu' Hq]. split; auto. destruct a; simpl in *; auto. destruct Hq; discriminate.
Qed.

Lemma spec_mono A (m : M A) blk pre post exn : spec false m pre post exn -> spec blk m pre post exn.
Proof.
  intros Hm h tr base Hu Hb Hh. specialize (Hm h tr base Hu Hb Hh).
  destruct (m h tr) as [a h' tr'|h' tr'|a tr'|]; auto.
  destruct Hm as [Hu' Hq]. split; auto. destruct a; simpl in *; auto. destruct Hq; discriminate.
Qed.

Lemma spec_unwinding A blk (d : M unit) (m : M A) pre post exn exn' :
  spec blk m pre post exn -> spec false d exn (fun _ => exn') exn' -> spec blk (unwinding d m) pre post exn'.
Proof.
  intros Hm Hd h tr base Hu Hb Hh. unfold unwinding. specialize (Hm h tr base Hu Hb Hh).
  destruct (m h tr) as [a h' tr'|h' tr'|a tr'|]; auto.
  destruct Hm as [Hu' Hq]. unfold bind.
  pose proof (@spec_mono _ d blk _ _ _ Hd h' tr' base Hu' Hb Hq) as Hd'.
  destruct (d h' tr') as [[] h'' tr''|h'' tr''|a tr''|]; auto.
Qed.

Lemma spec_throw A blk pre (post : A -> cnt) : spec blk throw pre post pre.
Proof. intros h tr base Hu Hb Hh. simpl. auto. Qed.

Lemma spec_lock m : spec true (do_lock m) c0 (fun _ => c1 m) c0.
Proof.
  intros h tr base Hu Hb Hh. unfold do_lock, bind, perform. destruct h as [|x h].
  - simpl. split; auto. split; auto. intros x. rewrite Hh. unfold c0. lia.
  - destruct x; simpl; (split; [exact Hu|]); intros x; rewrite Hh; unfold c0, c1; destruct (Nat.eqb m x); lia.
Qed.

Lemma spec_try m : spec false (do_try m) c0 (fun b => if b then c1 m else c0) c0.
Proof.
  intros h tr base Hu Hb Hh. unfold do_try, bind, perform. destruct h as [|x h].
  - simpl. auto.
  - destruct x; simpl; (split; [exact Hu|]); intros x; rewrite Hh; unfold c0, c1; destruct (Nat.eqb m x); lia.
Qed.

Lemma spec_unlock m (c : cnt) exn : (forall x, 0 <= c x) -> spec false (do_unlock m) (fun x => c1 m x + c x) (fun _ => c) exn.
Proof.
  intros Hc h tr base Hu Hb Hh.
  assert (Hp : 0 < held m tr).
  { rewrite Hh. unfold c1. rewrite Nat.eqb_refl. specialize (Hb m). specialize (Hc m). lia. }
  unfold do_unlock, bind, perform. destruct h as [|x h].
  - simpl. auto.
  - simpl. split; [split; [exact Hp|exact Hu]|]. intros y. rewrite Hh. unfold c1. destruct (Nat.eqb m y); lia.
Qed.

Lemma occurs_nil x : occurs [] x = 0. Proof. reflexivity. Qed.
Lemma occurs_cons m ms x : occurs (m :: ms) x = c1 m x + occurs ms x.
Proof.
  unfold occurs, c1. simpl. destruct (Nat.eq_dec m x) as [E|E].
  - apply Nat.eqb_eq in E. rewrite E. lia.
  - apply Nat.eqb_neq in E. rewrite E. lia.
Qed.
Lemma occurs_app a b x : occurs (a ++ b) x = occurs a x + occurs b x.
Proof. unfold occurs. rewrite count_occ_app. lia. Qed.
Lemma occurs_nonneg ms x : 0 <= occurs ms x. Proof. unfold occurs. lia. Qed.
Lemma occurs_split n ms x : occurs (firstn n ms) x + occurs (skipn n ms) x = occurs ms x.
Proof. rewrite <- occurs_app. now rewrite firstn_skipn. Qed.
Lemma occurs_rot k ms x : occurs (rot k ms) x = occurs ms x.
Proof. unfold rot. rewrite occurs_app, <- (occurs_split k ms x). lia. Qed.
Lemma c1_nonneg m x : 0 <= c1 m x. Proof. unfold c1. destruct (Nat.eqb m x); lia. Qed.

Ltac pw := intros; unfold c0; cbn beta iota; rewrite ?occurs_cons, ?occurs_nil; try lia.

(** Running [m] while [x] stays locked, with [x] unlocked if [m] throws. *)
Lemma spec_hold A blk (m : M A) x post :
  spec false m c0 post c0 ->
  spec blk (unwinding (do_unlock x) m) (c1 x) (fun a y => post a y + c1 x y) c0.
Proof.
  intros Hm. eapply spec_unwinding with (exn := fun y => c1 x y + c0 y).
  - eapply spec_conseq; [eapply spec_frame with (c := c1 x); [exact Hm|apply c1_nonneg]|pw|pw|pw].
  - apply spec_unlock. unfold c0. intros; lia.
Qed.

Definition res0 (ms : list nat) (f : nat) : cnt := if Nat.eqb f 0 then occurs ms else c0.

Lemma spec_try_internal ms : spec false (try_internal ms) c0 (res0 ms) c0.
Proof.
  induction ms as [|m ms IH].
  - apply spec_ret. reflexivity.
  - destruct ms as [|m' ms].
    + cbn [try_internal]. eapply spec_bind; [apply spec_try|]. intros b. apply spec_ret.
      destruct b; unfold res0; cbn [Nat.eqb]; pw.
    + change (try_internal (m :: m' :: ms)) with
        (b <- do_try m ;; if negb b then ret 1%nat
         else f <- unwinding (do_unlock m) (try_internal (m' :: ms)) ;;
              if Nat.eqb f 0 then ret 0%nat else do_unlock m ;;; ret (f + 1)%nat).
      eapply spec_bind; [apply spec_try|]. intros [|]; simpl.
      * eapply spec_bind; [apply spec_hold; exact IH|]. intros f. unfold res0. destruct (Nat.eqb f 0) eqn:E.
        -- apply spec_ret. cbn [Nat.eqb]. rewrite ?E. pw.
        -- eapply spec_bind with (mid := fun _ => c0).
           ++ eapply spec_conseq; [eapply spec_unlock with (c := c0) (exn := c0)|pw| |]; unfold c0; intros; try lia; reflexivity.
           ++ intros _. apply spec_ret. rewrite Nat.add_1_r. reflexivity.
      * apply spec_ret. unfold res0. reflexivity.
Qed.

Lemma spec_helper m ms : spec true (lock_helper (m :: ms)) c0 (res0 (m :: ms)) c0.
Proof.
  cbn [lock_helper]. eapply spec_bind; [apply spec_lock|]. intros [].
  eapply spec_bind; [apply spec_hold; apply spec_try_internal|]. intros f. unfold res0.
  destruct (Nat.eqb f 0) eqn:E.
  - apply spec_ret. cbn [Nat.eqb]. rewrite ?E. pw.
  - eapply spec_bind with (mid := fun _ => c0).
    + apply spec_mono. eapply spec_conseq; [eapply spec_unlock with (c := c0) (exn := c0)|pw| |]; unfold c0; intros; try lia; reflexivity.
    + intros _. apply spec_ret. rewrite E. reflexivity.
Qed.

Lemma spec_helper' ms : spec true (lock_helper ms) c0 (res0 ms) c0.
Proof. destruct ms; [apply spec_ret; reflexivity|apply spec_helper]. Qed.

Lemma spec_loop fuel ms k : spec true (lock_loop fuel ms k) c0 (fun _ => occurs ms) c0.
Proof.
  revert k. induction fuel as [|fuel IH]; intros k.
  - intros h tr base _ _ _. exact I.
  - cbn [lock_loop]. eapply spec_bind; [apply spec_helper'|]. intros f. unfold res0. destruct (Nat.eqb f 0) eqn:E.
    + apply spec_ret. intros x. apply occurs_rot.
    + apply IH.
Qed.

Lemma spec_try_range ms : spec false (try_range ms) c0 (fun f => if Nat.eqb f (length ms) then occurs ms else c0) c0.
Proof.
  induction ms as [|m ms IH].
  - apply spec_ret. reflexivity.
  - cbn [try_range]. eapply spec_bind; [apply spec_try|]. intros [|]; cbn [negb].
    + eapply spec_bind; [apply spec_hold; exact IH|]. intros f. cbn beta. destruct (Nat.eqb f (length ms)) eqn:E.
      * apply spec_ret. change (Nat.eqb (S f) (length (m :: ms))) with (Nat.eqb f (length ms)). rewrite E. pw.
      * eapply spec_bind with (mid := fun _ => c0).
        -- eapply spec_conseq; [eapply spec_unlock with (c := c0) (exn := c0)|pw| |]; unfold c0; intros; try lia; reflexivity.
        -- intros _. apply spec_ret. change (Nat.eqb (S f) (length (m :: ms))) with (Nat.eqb f (length ms)). rewrite E. reflexivity.
    + apply spec_ret. reflexivity.
Qed.

Lemma spec_unlock_all ms (c : cnt) exn :
  (forall x, 0 <= c x) -> spec false (unlock_all ms) (fun x => occurs ms x + c x) (fun _ => c) exn.
Proof.
  intros Hc. induction ms as [|m ms IH].
  - apply spec_ret. pw.
  - cbn [unlock_all]. eapply spec_bind with (mid := fun _ x => occurs ms x + c x).
    + eapply spec_conseq; [eapply spec_unlock with (c := fun x => occurs ms x + c x) (exn := exn)|pw| |]; intros; try reflexivity.
      pose proof (occurs_nonneg ms x). specialize (Hc x). lia.
    + intros _. exact IH.
Qed.

Lemma spec_skip A B blk (m : M A) (k : M B) pre mid post exn :
  spec blk m pre (fun _ => mid) exn -> spec blk k mid post exn -> spec blk (m ;;; k) pre post exn.
Proof. intros H1 H2. eapply spec_bind; [exact H1|]. intros a. exact H2. Qed.

Lemma spec_range fuel :
  (forall ms, spec true (range_lock fuel ms) c0 (fun _ => occurs ms) c0) /\
  (forall first rest b next, (b = true -> next = 0%nat) -> spec true (range_loop fuel first rest b next) c0 (fun _ => occurs (first :: rest)) c0).
Proof.
  induction fuel as [|fuel [IH1 IH2]].
  { split; [intros ms h tr base H1 H2 H3; exact I|intros first rest b next Hb h tr base H1 H2 H3; exact I]. }
  split.
  - intros [|m ms]; cbn [range_lock].
    + apply spec_ret. reflexivity.
    + apply IH2. auto.
  - intros first rest b next Hb. cbn [range_loop]. destruct b.
    + rewrite (Hb eq_refl). cbn [skipn].
      eapply spec_skip; [apply spec_lock|].
      eapply spec_bind; [apply spec_hold; apply spec_try_range|]. intros f. cbn beta.
      destruct (Nat.eqb f (length rest)) eqn:E.
      * apply spec_ret. pw.
      * eapply spec_skip with (mid := c0).
        -- apply spec_mono. eapply spec_conseq; [eapply spec_unlock with (c := c0) (exn := c0)|pw| |]; unfold c0; intros; try lia; reflexivity.
        -- apply IH2. discriminate.
    + set (tl := skipn next rest).
      assert (HU : forall c exn blk, (forall x, 0 <= c x) -> spec blk (unlock_all tl) (fun x => occurs tl x + c x) (fun _ => c) exn).
      { intros c exn blk Hc. apply spec_mono. now apply spec_unlock_all. }
      assert (HUz : forall exn blk, spec blk (unlock_all tl) (occurs tl) (fun _ => c0) exn).
      { intros exn blk. eapply spec_conseq; [eapply HU with (c := c0) (exn := exn)|pw| |]; unfold c0; intros; try lia; reflexivity. }
      eapply spec_skip; [apply IH1|].
      eapply spec_bind with (mid := fun b y => (if b : bool then c1 first y else 0) + occurs tl y).
      * eapply spec_unwinding with (exn := fun y => c0 y + occurs tl y).
        -- eapply spec_conseq; [eapply spec_frame with (c := occurs tl); [apply spec_try|apply occurs_nonneg]|pw| |reflexivity].
           intros [|] x; reflexivity.
        -- eapply spec_conseq; [apply HUz with (exn := c0)|pw|reflexivity|reflexivity].
      * intros [|]; cbn [negb].
        -- eapply spec_bind with (mid := fun f y => (if Nat.eqb f (length (firstn next rest)) then occurs (firstn next rest) y else 0)
                                                     + (c1 first y + occurs tl y)).
           ++ eapply spec_unwinding with (exn := fun y => c0 y + (c1 first y + occurs tl y)).
              ** eapply spec_conseq; [eapply spec_frame with (c := fun y => c1 first y + occurs tl y); [apply spec_try_range|]|pw| |reflexivity].
                 --- intros x. pose proof (c1_nonneg first x). pose proof (occurs_nonneg tl x). lia.
                 --- intros f x. cbn beta. destruct (Nat.eqb f (length (firstn next rest))); reflexivity.
              ** eapply spec_skip with (mid := c1 first).
                 --- eapply spec_conseq; [eapply HU with (c := c1 first) (exn := c0)|pw| |]; try reflexivity. apply c1_nonneg.
                 --- eapply spec_conseq; [eapply spec_unlock with (c := c0) (exn := c0)|pw| |]; unfold c0; intros; try lia; reflexivity.
           ++ intros f. cbn beta. destruct (Nat.eqb f (length (firstn next rest))) eqn:E.
              ** apply spec_ret. intros x. rewrite occurs_cons, <- (occurs_split next rest x). unfold tl. lia.
              ** eapply spec_skip with (mid := c1 first).
                 --- eapply spec_conseq; [eapply HU with (c := c1 first) (exn := c0)|pw| |]; try reflexivity. apply c1_nonneg.
                 --- eapply spec_skip with (mid := c0); [|apply IH2; discriminate].
                     apply spec_mono. eapply spec_conseq; [eapply spec_unlock with (c := c0) (exn := c0)|pw| |]; unfold c0; intros; try lia; reflexivity.
        -- eapply spec_skip with (mid := c0); [|apply IH2; auto].
           eapply spec_conseq; [apply HUz with (exn := c0)|pw|reflexivity|reflexivity].
Qed.

Lemma spec_body fuel c : spec true (lock_body fuel c) c0 (fun _ => occurs (args c)) c0.
Proof. destruct c as [ms|ms]; simpl; [apply spec_loop|apply spec_range]. Qed.

Lemma lock_all_or_none c h :
  match run_lock c h with
  | Val _ _ tr => unlocks_held tr /\ forall x, held x tr = occurs (args c) x
  | Exn _ tr => unlocks_held tr /\ forall x, held x tr = 0
  | Pend a tr => unlocks_held tr /\ pend_ok true c0 a tr
  | OutOfFuel => True
  end.
Proof.
  pose proof (@spec_body (3 + 2 * length h + 2 * length (args c)) c h [] c0 I (fun _ => Z.le_refl 0) (fun _ => eq_refl)) as H.
  unfold run_lock. destruct (lock_body _ c h []) as [a h' tr'|h' tr'|a tr'|]; auto.
Qed.

(** ** Which lockable failed *)
Definition is_try (e : act * ans) : bool := match fst e with ATry _ => true | _ => false end.
Definition tries (tr : trace) : trace := filter is_try (rev tr).

Lemma tries_cons e tr : tries (e :: tr) = tries tr ++ (if is_try e then [e] else []).
Proof. unfold tries. simpl. rewrite filter_app. simpl. destruct (is_try e); reflexivity. Qed.

(** the attempts a sequence makes that stops at the first failure, at position [f] (no failure if [f] is the length) *)
Definition attempts (ms : list nat) (f : nat) : trace :=
  map (fun m => (ATry m, AOk)) (firstn f ms) ++ map (fun m => (ATry m, AFail)) (firstn 1 (skipn f ms)).

Definition makes {A} (m : M A) (pos : A -> nat) (ms : list nat) : Prop :=
  forall h tr a h' tr', m h tr = Val a h' tr' ->
    (pos a <= length ms)%nat /\ tries tr' = tries tr ++ attempts ms (pos a).

Lemma do_try_makes m h tr b h' tr' :
  do_try m h tr = Val b h' tr' -> tr' = (ATry m, if b : bool then AOk else AFail) :: tr.
Proof.
  unfold do_try, bind, perform. destruct h as [|x h]; [discriminate|]. destruct x; simpl; try discriminate; injection 1 as <- <- <-; reflexivity.
Qed.
Lemma do_unlock_makes m h tr u h' tr' :
  do_unlock m h tr = Val u h' tr' -> exists x, tr' = (AUnlock m, x) :: tr.
Proof. unfold do_unlock, bind, perform. destruct h as [|x h]; [discriminate|]. simpl. injection 1 as <- <- <-. eauto. Qed.
Lemma bind_val A B (m : M A) (f : A -> M B) h tr b h' tr' :
  bind m f h tr = Val b h' tr' -> exists a h1 tr1, m h tr = Val a h1 tr1 /\ f a h1 tr1 = Val b h' tr'.
Proof. unfold bind. destruct (m h tr) as [a h1 tr1|h1 tr1|a tr1|]; try discriminate. eauto 10. Qed.
Lemma unwinding_val A (d : M unit) (m : M A) h tr b h' tr' :
  unwinding d m h tr = Val b h' tr' -> m h tr = Val b h' tr'.
Proof.
  unfold unwinding. destruct (m h tr) as [a h1 tr1|h1 tr1|a tr1|]; try discriminate; auto.
  unfold bind. destruct (d h1 tr1); discriminate.
Qed.

(** [f = 0] means success *)
Definition pos0 (ms : list nat) (f : nat) : nat := if Nat.eqb f 0 then length ms else (f - 1)%nat.

Lemma try_internal_makes ms : makes (try_internal ms) (pos0 ms) ms.
Proof.
  induction ms as [|m ms IH]; intros h tr f h' tr' H.
  - injection H as <- <- <-. unfold pos0; simpl. split; [lia|]. now rewrite app_nil_r.
  - destruct ms as [|m' ms].
    + cbn [try_internal] in H. apply bind_val in H as (b & h1 & tr1 & H1 & H2). apply do_try_makes in H1. subst tr1.
      injection H2 as <- <- <-. rewrite tries_cons. destruct b; unfold pos0; simpl; split; try lia; reflexivity.
    + change (try_internal (m :: m' :: ms)) with
        (b <- do_try m ;; if negb b then ret 1%nat
         else f <- unwinding (do_unlock m) (try_internal (m' :: ms)) ;;
              if Nat.eqb f 0 then ret 0%nat else do_unlock m ;;; ret (f + 1)%nat) in H.
      apply bind_val in H as (b & h1 & tr1 & H1 & H2). apply do_try_makes in H1. subst tr1.
      destruct b; cbn [negb] in H2.
      * apply bind_val in H2 as (g & h2 & tr2 & H2 & H3). apply unwinding_val in H2. apply IH in H2 as [Hl Ht].
        rewrite tries_cons in Ht. cbn [is_try fst] in Ht. unfold pos0 in *.
        destruct (Nat.eqb g 0) eqn:E.
        -- injection H3 as <- <- <-. cbn [Nat.eqb]. split; [lia|]. rewrite Ht, <- app_assoc. f_equal.
        -- apply bind_val in H3 as (u & h3 & tr3 & H3 & H4). apply do_unlock_makes in H3 as [x ->].
           injection H4 as <- <- <-. rewrite tries_cons. cbn [is_try fst]. rewrite app_nil_r.
           apply Nat.eqb_neq in E. destruct g as [|g]; [congruence|]. rewrite Nat.add_1_r. cbn [Nat.eqb].
           replace (S (S g) - 1)%nat with (S g) by lia. replace (S g - 1)%nat with g in * by lia.
           split; [simpl in *; lia|]. rewrite Ht, <- app_assoc. reflexivity.
      * injection H2 as <- <- <-. rewrite tries_cons. unfold pos0. simpl. split; [lia|reflexivity].
Qed.

Lemma try_range_makes ms : makes (try_range ms) (fun f => f) ms.
Proof.
  induction ms as [|m ms IH]; intros h tr f h' tr' H.
  - injection H as <- <- <-. simpl. split; [lia|]. now rewrite app_nil_r.
  - cbn [try_range] in H. apply bind_val in H as (b & h1 & tr1 & H1 & H2). apply do_try_makes in H1. subst tr1.
    destruct b; cbn [negb] in H2.
    + apply bind_val in H2 as (g & h2 & tr2 & H2 & H3). apply unwinding_val in H2. apply IH in H2 as [Hl Ht].
      rewrite tries_cons in Ht. cbn [is_try fst] in Ht.
      destruct (Nat.eqb g (length ms)) eqn:E.
      * injection H3 as <- <- <-. split; [simpl; lia|]. rewrite Ht, <- app_assoc. reflexivity.
      * apply bind_val in H3 as (u & h3 & tr3 & H3 & H4). apply do_unlock_makes in H3 as [x ->].
        injection H4 as <- <- <-. rewrite tries_cons. cbn [is_try fst]. rewrite app_nil_r.
        split; [simpl; lia|]. rewrite Ht, <- app_assoc. reflexivity.
    + injection H2 as <- <- <-. rewrite tries_cons. simpl. split; [lia|reflexivity].
Qed.

(** ** Accounting of answers, and behaviour on one more answer *)
Definition acct {A} (m : M A) : Prop :=
  forall h tr, match m h tr with
  | Val _ h' tr' | Exn h' tr' => exists seg, tr' = seg ++ tr /\ length h = (length seg + length h')%nat
  | Pend _ tr' => exists seg, tr' = seg ++ tr /\ length h = length seg
  | OutOfFuel => True
  end.

Definition mext {A} (m m' : M A) : Prop :=
  forall h tr x, match m h tr with
  | Val a h' tr' => m' (h ++ [x]) tr = Val a (h' ++ [x]) tr'
  | Exn h' tr' => m' (h ++ [x]) tr = Exn (h' ++ [x]) tr'
  | Pend a tr' => m' (h ++ [x]) tr = OutOfFuel \/ trace_of (m' (h ++ [x]) tr) = (a, x) :: tr'
  | OutOfFuel => True
  end.

Definition good {A} (m m' : M A) : Prop := acct m /\ acct m' /\ mext m m'.

Lemma acct_nil A (m : M A) tr : acct m -> m [] tr = OutOfFuel \/ trace_of (m [] tr) = tr.
Proof.
  intros H. specialize (H [] tr).
  destruct (m [] tr) as [a h' tr'|h' tr'|a tr'|]; auto; right; destruct H as (seg & -> & Hl); simpl in *;
    (destruct seg; [reflexivity|simpl in Hl; lia]).
Qed.

Lemma acct_bind A B (m : M A) (f : A -> M B) : acct m -> (forall a, acct (f a)) -> acct (bind m f).
Proof.
  intros Hm Hf h tr. unfold bind. specialize (Hm h tr).
  destruct (m h tr) as [a h' tr'|h' tr'|a tr'|]; auto.
  destruct Hm as (seg & -> & Hl). specialize (Hf a h' (seg ++ tr)).
  destruct (f a h' (seg ++ tr)) as [b h2 tr2|h2 tr2|b tr2|]; auto;
    destruct Hf as (seg' & -> & Hl'); exists (seg' ++ seg); rewrite app_length, <- app_assoc; (split; [reflexivity|lia]).
Qed.

Lemma good_bind A B (m m' : M A) (f f' : A -> M B) : good m m' -> (forall a, good (f a) (f' a)) -> good (bind m f) (bind m' f').
Proof.
  intros (Ha & Ha' & Hx) Hf. split; [|split].
  - apply acct_bind; auto. intros a. apply Hf.
  - apply acct_bind; auto. intros a. apply Hf.
  - intros h tr x. unfold bind. specialize (Hx h tr x). specialize (Ha h tr). pose proof (Ha' (h ++ [x]) tr) as Hb.
    destruct (m h tr) as [a h' tr'|h' tr'|a tr'|]; auto.
    + rewrite Hx. destruct (Hf a) as (_ & _ & Hfx). exact (Hfx h' tr' x).
    + now rewrite Hx.
    + destruct Ha as (seg & Htr & Hl). destruct Hx as [Hx|Hx]; [now rewrite Hx; left|].
      destruct (m' (h ++ [x]) tr) as [b h2 tr2|h2 tr2|b tr2|]; auto. simpl in Hx. subst tr2.
      destruct Hb as (seg' & Heq & Hl'). rewrite app_length in Hl'. simpl in Hl'.
      assert (length seg' = S (length seg)).
      { rewrite Htr in Heq. apply (f_equal (@length _)) in Heq. simpl in Heq. rewrite !app_length in Heq. lia. }
      assert (h2 = []) by (destruct h2; [reflexivity|simpl in Hl'; lia]). subst h2.
      apply acct_nil. apply Hf.
Qed.

Lemma good_ret A (a : A) : good (ret a) (ret a).
Proof.
  assert (Ha : acct (ret a)) by (intros h tr; simpl; now exists []).
  split; [exact Ha|split; [exact Ha|]]. intros h tr x. reflexivity.
Qed.
Lemma good_throw A : good (@throw A) throw.
Proof.
  assert (Ha : acct (@throw A)) by (intros h tr; simpl; now exists []).
  split; [exact Ha|split; [exact Ha|]]. intros h tr x. reflexivity.
Qed.
Lemma good_perform a : good (perform a) (perform a).
Proof.
  assert (Ha : acct (perform a)).
  { intros [|x h] tr; simpl; [now exists []|now exists [(a, x)]]. }
  split; [exact Ha|split; [exact Ha|]]. intros [|y h] tr x; simpl; auto.
Qed.

Lemma acct_unwinding A (d : M unit) (m : M A) : acct d -> acct m -> acct (unwinding d m).
Proof.
  intros Hd Hm h tr. unfold unwinding. specialize (Hm h tr).
  destruct (m h tr) as [a h' tr'|h' tr'|a tr'|]; auto.
  destruct Hm as (seg & -> & Hl). unfold bind. specialize (Hd h' (seg ++ tr)).
  destruct (d h' (seg ++ tr)) as [b h2 tr2|h2 tr2|b tr2|]; auto;
    destruct Hd as (seg' & -> & Hl'); exists (seg' ++ seg); rewrite app_length, <- app_assoc; (split; [reflexivity|lia]).
Qed.

Lemma good_unwinding A (d d' : M unit) (m m' : M A) : good d d' -> good m m' -> good (unwinding d m) (unwinding d' m').
Proof.
  intros (Hd & Hd' & Hdx) (Ha & Ha' & Hx). split; [now apply acct_unwinding|split; [now apply acct_unwinding|]].
  intros h tr x. unfold unwinding. specialize (Hx h tr x). specialize (Ha h tr). pose proof (Ha' (h ++ [x]) tr) as Hb.
  destruct (m h tr) as [a h' tr'|h' tr'|a tr'|]; auto.
  - now rewrite Hx.
  - rewrite Hx. destruct (@good_bind _ _ d d' (fun _ => @throw A) (fun _ => @throw A) (conj Hd (conj Hd' Hdx)) (fun _ => @good_throw A)) as (_ & _ & Hbx). exact (Hbx h' tr' x).
  - destruct Ha as (seg & Htr & Hl). destruct Hx as [Hx|Hx]; [now rewrite Hx; left|].
    destruct (m' (h ++ [x]) tr) as [b h2 tr2|h2 tr2|b tr2|]; auto. simpl in Hx. subst tr2.
    destruct Hb as (seg' & Heq & Hl'). rewrite app_length in Hl'. simpl in Hl'.
    assert (length seg' = S (length seg)).
    { rewrite Htr in Heq. apply (f_equal (@length _)) in Heq. simpl in Heq. rewrite !app_length in Heq. lia. }
    assert (h2 = []) by (destruct h2; [reflexivity|simpl in Hl'; lia]). subst h2.
    apply acct_nil. apply acct_bind; auto. intros []. apply good_throw.
Qed.

Lemma good_fuel A (m' : M A) : acct m' -> good (fun _ _ => OutOfFuel) m'.
Proof. intros H. split; [intros h tr; exact I|split; [exact H|intros h tr x; exact I]]. Qed.

Lemma good_lock m : good (do_lock m) (do_lock m).
Proof. apply good_bind; [apply good_perform|]. intros []; (apply good_ret || apply good_throw). Qed.
Lemma good_try m : good (do_try m) (do_try m).
Proof. apply good_bind; [apply good_perform|]. intros []; (apply good_ret || apply good_throw). Qed.
Lemma good_unlock m : good (do_unlock m) (do_unlock m).
Proof. apply good_bind; [apply good_perform|]. intros a. apply good_ret. Qed.
Lemma good_unlock_all ms : good (unlock_all ms) (unlock_all ms).
Proof. induction ms; [apply good_ret|]. apply good_bind; [apply good_unlock|]. intros []. exact IHms. Qed.

#[local] Hint Resolve good_ret good_throw good_lock good_try good_unlock good_unlock_all good_perform : good.
Ltac gd := repeat first
  [ solve [eauto with good]
  | apply good_bind; [|let a := fresh "a" in intros a]
  | apply good_unwinding
  | match goal with |- good (if ?b then _ else _) (if ?b then _ else _) => destruct b end ].

Lemma good_try_internal ms : good (try_internal ms) (try_internal ms).
Proof.
  induction ms as [|m ms IH]; [apply good_ret|]. destruct ms as [|m' ms]; [cbn [try_internal]; gd|].
  change (try_internal (m :: m' :: ms)) with
        (b <- do_try m ;; if negb b then ret 1%nat
         else f <- unwinding (do_unlock m) (try_internal (m' :: ms)) ;;
              if Nat.eqb f 0 then ret 0%nat else do_unlock m ;;; ret (f + 1)%nat).
  gd.
Qed.
#[local] Hint Resolve good_try_internal : good.
Lemma good_helper ms : good (lock_helper ms) (lock_helper ms).
Proof. destruct ms; cbn [lock_helper]; gd. Qed.
#[local] Hint Resolve good_helper : good.
Lemma good_try_range ms : good (try_range ms) (try_range ms).
Proof. induction ms as [|m ms IH]; cbn [try_range]; gd. Qed.
#[local] Hint Resolve good_try_range : good.

Lemma acct_loop fuel ms k : acct (lock_loop fuel ms k).
Proof.
  revert k. induction fuel as [|fuel IH]; intros k; [intros h tr; exact I|]. cbn [lock_loop].
  apply acct_bind; [apply good_helper|]. intros f. destruct (Nat.eqb f 0); [apply good_ret|apply IH].
Qed.

Lemma good_loop fuel fuel' ms k : (fuel <= fuel')%nat -> good (lock_loop fuel ms k) (lock_loop fuel' ms k).
Proof.
  revert fuel' k. induction fuel as [|fuel IH]; intros fuel' k Hle.
  - apply good_fuel. apply acct_loop.
  - destruct fuel' as [|fuel']; [lia|]. cbn [lock_loop]. gd. apply IH. lia.
Qed.

Lemma good_range fuel :
  (forall ms, good (range_lock fuel ms) (range_lock fuel ms)) /\
  (forall first rest b next, good (range_loop fuel first rest b next) (range_loop fuel first rest b next)).
Proof.
  induction fuel as [|fuel [IH1 IH2]].
  - split; intros; apply good_fuel; intros h tr; exact I.
  - split.
    + intros [|m ms]; cbn [range_lock]; gd.
    + intros first rest b next. cbn [range_loop]. destruct b; gd.
Qed.

Lemma good_range' fuel : forall fuel', (fuel <= fuel')%nat ->
  (forall ms, good (range_lock fuel ms) (range_lock fuel' ms)) /\
  (forall first rest b next, good (range_loop fuel first rest b next) (range_loop fuel' first rest b next)).
Proof.
  induction fuel as [|fuel IH]; intros fuel' Hle.
  - split; intros; apply good_fuel; apply good_range.
  - destruct fuel' as [|fuel']; [lia|]. destruct (IH fuel' ltac:(lia)) as [IH1 IH2]. split.
    + intros [|m ms]; cbn [range_lock]; gd.
    + intros first rest b next. cbn [range_loop]. destruct b; gd.
Qed.

Lemma good_body fuel fuel' c : (fuel <= fuel')%nat -> good (lock_body fuel c) (lock_body fuel' c).
Proof. intros H. destruct c as [ms|ms]; simpl; [now apply good_loop|now apply good_range']. Qed.

(** ** The fuel suffices *)
Local Open Scope nat_scope.
(** Needs [K] answers less than ... : with fewer than [K] answers it does not run out of fuel, and uses up at least [n]. *)
Definition total {A} (n : nat) (K : nat) (m : M A) : Prop :=
  forall h tr, length h < K -> match m h tr with
  | Val _ h' _ => length h' + n <= length h
  | Exn h' _ => length h' <= length h
  | Pend _ _ => True
  | OutOfFuel => False
  end.

Lemma total_bind A B n n' K (m : M A) (f : A -> M B) :
  total n K m -> (forall a, total n' (K - n) (f a)) -> total (n + n') K (bind m f).
Proof.
  intros Hm Hf h tr Hl. unfold bind. specialize (Hm h tr Hl).
  destruct (m h tr) as [a h' tr'|h' tr'|a tr'|]; auto.
  assert (Hl' : length h' < K - n) by lia. specialize (Hf a h' tr' Hl').
  destruct (f a h' tr') as [b h2 tr2|h2 tr2|b tr2|]; auto; lia.
Qed.
Lemma total_weak A n n' K K' (m : M A) : total n K m -> n' <= n -> K' <= K -> total n' K' m.
Proof.
  intros Hm H1 H2 h tr Hl. assert (Hl' : length h < K) by lia. specialize (Hm h tr Hl').
  destruct (m h tr) as [a h' tr'|h' tr'|a tr'|]; auto; lia.
Qed.
Lemma total_unwinding A n K (d : M unit) (m : M A) : total 0 K d -> total n K m -> total n K (unwinding d m).
Proof.
  intros Hd Hm h tr Hl. unfold unwinding. specialize (Hm h tr Hl).
  destruct (m h tr) as [a h' tr'|h' tr'|a tr'|]; auto.
  assert (Hl' : length h' < K) by lia. specialize (Hd h' tr' Hl'). unfold bind.
  destruct (d h' tr') as [b h2 tr2|h2 tr2|b tr2|]; auto; simpl; lia.
Qed.
Lemma total_ret A K (a : A) : total 0 K (ret a).
Proof. intros h tr _. simpl. lia. Qed.
Lemma total_perform K a : total 1 K (perform a).
Proof. intros [|x h] tr _; simpl; auto. lia. Qed.
Lemma total_throw A n K : total n K (@throw A).
Proof. intros h tr _. simpl. lia. Qed.
Lemma total_lock K m : total 1 K (do_lock m).
Proof.
  change 1 with (1 + 0). apply total_bind; [apply total_perform|]. intros []; (apply total_ret || apply total_throw).
Qed.
Lemma total_try K m : total 1 K (do_try m).
Proof.
  change 1 with (1 + 0). apply total_bind; [apply total_perform|]. intros []; (apply total_ret || apply total_throw).
Qed.
Lemma total_unlock K m : total 1 K (do_unlock m).
Proof. change 1 with (1 + 0). apply total_bind; [apply total_perform|]. intros []; apply total_ret. Qed.

Lemma total0_bind A B K (m : M A) (f : A -> M B) : total 0 K m -> (forall a, total 0 K (f a)) -> total 0 K (bind m f).
Proof. intros H1 H2. change 0 with (0 + 0). apply total_bind; auto. intros a. now rewrite Nat.sub_0_r. Qed.
Lemma total0_lock K m : total 0 K (do_lock m).
Proof. eapply total_weak; [apply total_lock|lia|reflexivity]. Qed.
Lemma total0_try K m : total 0 K (do_try m).
Proof. eapply total_weak; [apply total_try|lia|reflexivity]. Qed.
Lemma total0_unlock K m : total 0 K (do_unlock m).
Proof. eapply total_weak; [apply total_unlock|lia|reflexivity]. Qed.
#[local] Hint Resolve total_ret total_throw total0_lock total0_try total0_unlock total_lock total_try total_unlock : total.
Ltac tot := repeat first
  [ solve [eauto with total]
  | apply total0_bind; [|let a := fresh "a" in intros a]
  | apply total_unwinding
  | match goal with |- total _ _ (if ?b then _ else _) => destruct b end ].

Lemma total_unlock_all K ms : total 0 K (unlock_all ms).
Proof. induction ms; cbn [unlock_all]; tot. Qed.
Lemma total_try_internal K ms : total 0 K (try_internal ms).
Proof.
  induction ms as [|m ms IH]; [apply total_ret|]. destruct ms as [|m' ms]; [cbn [try_internal]; tot|].
  change (try_internal (m :: m' :: ms)) with
        (b <- do_try m ;; if negb b then ret 1
         else f <- unwinding (do_unlock m) (try_internal (m' :: ms)) ;;
              if Nat.eqb f 0 then ret 0 else do_unlock m ;;; ret (f + 1)).
  tot.
Qed.
Lemma total_try_range K ms : total 0 K (try_range ms).
Proof. induction ms as [|m ms IH]; cbn [try_range]; tot. Qed.
#[local] Hint Resolve total_unlock_all total_try_internal total_try_range : total.
Lemma total_helper K m ms : total 1 K (lock_helper (m :: ms)).
Proof. cbn [lock_helper]. change 1 with (1 + 0). apply total_bind; [apply total_lock|]. intros []. tot. Qed.

Lemma rot_nil k ms : rot k ms = [] -> ms = [].
Proof.
  unfold rot. intros H. apply app_eq_nil in H as [H1 H2]. rewrite <- (firstn_skipn k ms). now rewrite H1, H2.
Qed.

Lemma total_loop fuel ms k : total 0 fuel (lock_loop fuel ms k).
Proof.
  revert k. induction fuel as [|fuel IH]; intros k.
  - intros h tr H. lia.
  - cbn [lock_loop]. destruct (rot k ms) as [|m l] eqn:E.
    + intros h tr Hl. simpl. lia.
    + eapply total_weak with (n := 1 + 0) (K := S fuel); [|lia|lia].
      apply total_bind; [apply total_helper|]. intros f. replace (S fuel - 1) with fuel by lia.
      destruct (Nat.eqb f 0); [apply total_ret|apply IH].
Qed.

Lemma total1_bind A B K (m : M A) (f : A -> M B) : total 1 K m -> (forall a, total 0 (K - 1) (f a)) -> total 0 K (bind m f).
Proof. intros H1 H2. eapply total_weak with (n := 1 + 0) (K := K); [|lia|lia]. apply total_bind; auto. Qed.

Lemma total_range fuel :
  (forall K ms, 2 * K + 2 * length ms <= fuel + 1 -> total 0 K (range_lock fuel ms)) /\
  (forall K first rest b next, 2 * K + 2 * length rest <= fuel -> total 0 K (range_loop fuel first rest b next)).
Proof.
  induction fuel as [|fuel [IH1 IH2]].
  - split; intros; intros h tr Hl; lia.
  - split.
    + intros K [|m ms] H; cbn [range_lock]; [apply total_ret|]. apply IH2. simpl in H. lia.
    + intros K first rest b next H. destruct K as [|K]; [intros h tr Hl; lia|]. cbn [range_loop]. destruct b.
      * apply total1_bind; [apply total_lock|]. intros a.
        apply total0_bind; [tot|]. intros f. destruct (Nat.eqb f _); [tot|].
        apply total0_bind; [tot|]. intros u. apply IH2. lia.
      * apply total0_bind; [apply IH1; rewrite skipn_length; lia|]. intros a.
        apply total1_bind; [tot|]. intros [|]; cbn [negb].
        -- apply total0_bind; [tot|]. intros f. destruct (Nat.eqb f _); [tot|].
           apply total0_bind; [tot|]. intros u. apply total0_bind; [tot|]. intros u'. apply IH2. lia.
        -- apply total0_bind; [tot|]. intros u. apply IH2. lia.
Qed.

Lemma run_lock_fuel c h : run_lock c h <> OutOfFuel.
Proof.
  unfold run_lock. intros H.
  assert (Ht : total 0 (S (length h)) (lock_body (3 + 2 * length h + 2 * length (args c)) c)).
  { destruct c as [ms|ms]; cbn [lock_body args].
    - eapply total_weak; [apply total_loop|lia|lia].
    - apply total_range. lia. }
  specialize (Ht h [] (Nat.lt_succ_diag_r _)). now rewrite H in Ht.
Qed.

(** After one more answer the trace is longer by exactly that action. *)
Lemma run_lock_next c h a tr x : run_lock c h = Pend a tr -> trace_of (run_lock c (h ++ [x])) = (a, x) :: tr.
Proof.
  intros H. pose proof (run_lock_fuel c (h ++ [x])) as Hf. unfold run_lock in *.
  set (F := 3 + 2 * length h + 2 * length (args c)) in *.
  set (F' := 3 + 2 * length (h ++ [x]) + 2 * length (args c)) in *.
  assert (Hle : F <= F') by (unfold F, F'; rewrite app_length; lia).
  destruct (good_body c Hle) as (_ & _ & Hx). specialize (Hx h [] x). rewrite H in Hx.
  destruct Hx as [Hx|Hx]; [contradiction|exact Hx].
Qed.
