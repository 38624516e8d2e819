(** * Proofs about thread_executor *)
From Verif Require Import TX_Spec.
Set Implicit Arguments.

Lemma upd_length A (l : list A) i x : length (upd l i x) = length l.
Proof. revert i. induction l as [|y l IH]; intros [|i]; cbn; auto. Qed.
Lemma upd_same A (l : list A) i x y : nth_error l i = Some y -> nth_error (upd l i x) i = Some x.
Proof. revert i. induction l as [|z l IH]; intros [|i]; cbn; intros H; try discriminate; auto. Qed.
Lemma upd_other A (l : list A) i j x : j <> i -> nth_error (upd l i x) j = nth_error l j.
Proof. revert i j. induction l as [|z l IH]; intros [|i] [|j] H; cbn; auto; congruence. Qed.

Definition ended (s : cfg) (i : nat) : Prop := nth_error (workers s) i = Some Ended.

(** what each event says about the past *)
Definition egood (e : event) (h : list event) : Prop :=
  ~ In EGone h /\
  match e with
  | EAccept w i => (forall u, ~ In (EClose u) h) /\ (forall u, ~ In (EAccept u i) h)
  | ERefuse w => exists u, In (EClose u) h
  | EQuery w b => b = true <-> exists u, In (EClose u) h
  | EEnd i => (exists u, In (EAccept u i) h) /\ ~ In (EEnd i) h
  | EGone => forall u i, In (EAccept u i) h -> In (EEnd i) h
  | EClose w => True
  end.
Fixpoint hgood (h : list event) : Prop := match h with [] => True | e :: h' => egood e h' /\ hgood h' end.

Record Inv (s : cfg) : Prop := MkInv {
  i_closed : closed s = true <-> exists w, In (EClose w) (hist s);
  i_acc : forall i, i < length (workers s) <-> exists w, In (EAccept w i) (hist s);
  i_end : forall i, ended s i <-> In (EEnd i) (hist s);
  i_ph : ph s <> Alive -> closed s = true /\ In (EClose Dtor) (hist s) /\ all_done (users s) = true;
  i_join : forall k, ph s = Joining k -> forall i, i < k -> i < length (workers s) -> ended s i;
  i_gone : ph s = Gone <-> In EGone (hist s);
  i_all : ph s = Gone -> forall i, i < length (workers s) -> ended s i;
  i_hist : hgood (hist s);
  i_ub : ub s = true -> mutex_gone (ph s) = true /\ exists i, i < length (workers s) /\ ~ ended s i }.

Lemma hgood_app h2 h1 : hgood (h2 ++ h1) -> hgood h1.
Proof. induction h2 as [|e h2 IH]; cbn; [auto|]. intros [_ H]. auto. Qed.
Lemma hgood_split e h2 h1 : hgood (h2 ++ e :: h1) -> egood e h1.
Proof. intros H. apply hgood_app in H. apply H. Qed.

(** the effect of putting the rest of the commands back *)
Record putok (s s1 : cfg) : Prop := MkPut {
  p_closed : closed s1 = closed s; p_ph : ph s1 = ph s; p_ub : ub s1 = ub s; p_term : term s1 = term s; p_hist : hist s1 = hist s;
  p_len : length (workers s1) = length (workers s); p_end : forall i, ended s1 i <-> ended s i;
  p_users : ph s <> Alive -> users s1 = users s }.
Lemma putok_inv s s1 : putok s s1 -> Inv s -> Inv s1.
Proof.
  intros [P1 P2 P3 P4 P5 P6 P7 P8] [A B C D E F G H I]. split; rewrite ?P1, ?P2, ?P3, ?P5, ?P6; auto.
  - intros i. rewrite P7. apply C.
  - intros Hp. rewrite P8 by exact Hp. auto.
  - intros k Hk i H1 H2. apply P7. eapply E; eauto.
  - intros Hg i Hi. apply P7. auto.
  - intros Hu. destruct (I Hu) as (I1 & i & Hi & I2). split; auto. exists i. split; auto. rewrite P7. exact I2.
Qed.

Lemma worker_put s i r c : nth_error (workers s) i = Some (Running (c :: r)) -> forall s1, workers s1 = workers s \/ (exists k, workers s1 = workers s ++ [Running k]) -> putok s1 (put_worker i (Running r) s1).
Proof.
  intros Hi s1 Hw. split; try reflexivity; cbn [workers put_worker users].
  - apply upd_length.
  - intros j. unfold ended. cbn [workers put_worker].
    assert (Hn : nth_error (workers s1) i = Some (Running (c :: r))).
    { destruct Hw as [->|(k & ->)]; [exact Hi|]. rewrite nth_error_app1; [exact Hi|]. apply nth_error_Some. congruence. }
    destruct (Nat.eq_dec j i) as [->|Hne].
    + rewrite (upd_same _ _ _ Hn), Hn. split; intros X; discriminate X.
    + rewrite upd_other by exact Hne. tauto.
Qed.
Lemma user_put i r s1 : ph s1 = Alive -> putok s1 (put_user i r s1).
Proof. intros H. split; try reflexivity; try tauto. Qed.

Lemma ended_app s k j x : workers s = x -> nth_error (x ++ [Running k]) j = Some Ended <-> ended s j.
Proof.
  intros <-. unfold ended. destruct (Nat.lt_ge_cases j (length (workers s))) as [H|H].
  - rewrite nth_error_app1 by exact H. tauto.
  - rewrite nth_error_app2 by exact H. assert (E : nth_error (workers s) j = None) by (apply nth_error_None; exact H). rewrite E.
    destruct (j - length (workers s)) as [|m]; cbn; [split; intros X; discriminate X|]. destruct m; cbn; split; intros X; discriminate X.
Qed.

(** a command in the executor *)
Lemma cmd_inv w isu c put s :
  Inv s -> ub s = false -> term s = false -> (forall s1, workers s1 = workers s \/ (exists k, workers s1 = workers s ++ [Running k]) -> ph s1 = ph s -> putok s1 (put s1)) ->
  (mutex_gone (ph s) = true -> exists i, i < length (workers s) /\ ~ ended s i) -> Inv (do_cmd w isu c put s).
Proof.
  intros HI Hu Ht Hp Hg. pose proof HI as [A B C D E F G H I]. destruct c as [k ct| | |]; cbn [do_cmd].
  - destruct (mutex_gone (ph s)) eqn:Em.
    { split; cbn; auto. }
    assert (Hng : ~ In EGone (hist s)) by (intros X; apply F in X; rewrite X in Em; discriminate).
    destruct (closed s) eqn:Ec.
    + assert (X : Inv (MkX true (ph s) (users s) (workers s) (ub s) (term s) (ERefuse w :: hist s))).
      { split; cbn [closed ph users workers ub term hist]; auto.
        - split; [|auto]. intros _. destruct (proj1 A eq_refl) as (u & Hin). exists u. right. exact Hin.
        - intros i. rewrite B. split; intros (u & Hin); exists u; [right|destruct Hin as [X|X]; [discriminate|]]; auto.
        - intros i. specialize (C i). unfold ended in *. cbn [workers]. rewrite C. split; [right; auto|]. intros [X|X]; [discriminate|auto].
        - intros X. destruct (D X) as (D1 & D2 & D3). split; [auto|]. split; [right; auto|auto].
        - rewrite F. split; [right; auto|]. intros [X|X]; [discriminate|auto].
        - cbn. split; [|auto]. split; [auto|]. apply A. reflexivity.
        - congruence. }
      destruct (isu || ct).
      * eapply putok_inv; [apply Hp; cbn; auto|]. exact X.
      * destruct X as [XA XB XC XD XE XF XG XH XI]. split; auto.
    + eapply putok_inv; [apply Hp; cbn; eauto|].
      split; cbn [closed ph users workers ub term hist]; auto.
      * split; [discriminate|]. intros (u & [X|X]); [discriminate|]. apply A. eauto.
      * intros i. rewrite app_length. cbn [length]. split.
        -- intros Hi. destruct (Nat.eq_dec i (length (workers s))) as [->|Hne]; [exists w; left; reflexivity|].
           destruct (proj1 (B i) ltac:(lia)) as (u & Hin). exists u. right. exact Hin.
        -- intros (u & [X|X]); [injection X as _ <-; lia|]. assert (i < length (workers s)) by (apply B; eauto). lia.
      * intros i. unfold ended. cbn [workers]. rewrite (@ended_app s k i _ eq_refl). rewrite C. split; [right; auto|]. intros [X|X]; [discriminate|auto].
      * intros X. destruct (D X) as (D1 & D2 & D3). congruence.
      * intros j Hj. assert (ph s <> Alive) by congruence. destruct (D H0) as (D1 & _). congruence.
      * rewrite F. split; [right; auto|]. intros [X|X]; [discriminate|auto].
      * intros Hj. assert (ph s <> Alive) by congruence. destruct (D H0) as (D1 & _). congruence.
      * split; [|auto]. split; [auto|]. split.
        -- intros u X. assert (Y : false = true) by (apply A; eauto). discriminate.
        -- intros u X. assert (length (workers s) < length (workers s)) by (apply B; eauto). lia.
      * congruence.
  - destruct (mutex_gone (ph s)) eqn:Em.
    { split; cbn; auto. }
    assert (Hng : ~ In EGone (hist s)) by (intros X; apply F in X; rewrite X in Em; discriminate).
    eapply putok_inv; [apply Hp; cbn; eauto|].
    split; cbn [closed ph users workers ub term hist]; auto.
    + split; [|auto]. intros _. exists w. left. reflexivity.
    + intros i. rewrite B. split; intros (u & Hin); exists u; [right|destruct Hin as [X|X]; [discriminate|]]; auto.
    + intros i. specialize (C i). unfold ended in *. cbn [workers]. rewrite C. split; [right; auto|]. intros [X|X]; [discriminate|auto].
    + intros X. destruct (D X) as (D1 & D2 & D3). split; [auto|]. split; [right; auto|auto].
    + rewrite F. split; [right; auto|]. intros [X|X]; [discriminate|auto].
    + cbn [hgood]. unfold egood. auto.
    + congruence.
  - destruct (mutex_gone (ph s)) eqn:Em.
    { split; cbn; auto. }
    assert (Hng : ~ In EGone (hist s)) by (intros X; apply F in X; rewrite X in Em; discriminate).
    eapply putok_inv; [apply Hp; cbn; eauto|].
    split; cbn [closed ph users workers ub term hist]; auto.
    + rewrite A. split; intros (u & Hin); exists u; [right|destruct Hin as [X|X]; [discriminate|]]; auto.
    + intros i. rewrite B. split; intros (u & Hin); exists u; [right|destruct Hin as [X|X]; [discriminate|]]; auto.
    + intros i. specialize (C i). unfold ended in *. cbn [workers]. rewrite C. split; [right; auto|]. intros [X|X]; [discriminate|auto].
    + intros X. destruct (D X) as (D1 & D2 & D3). split; [auto|]. split; [right; auto|auto].
    + rewrite F. split; [right; auto|]. intros [X|X]; [discriminate|auto].
    + cbn [hgood]. unfold egood. auto.
    + congruence.
  - destruct isu.
    + eapply putok_inv; [apply Hp; auto|exact HI].
    + split; auto.
Qed.

Lemma users_alive s i c r : Inv s -> nth_error (users s) i = Some (c :: r) -> ph s = Alive.
Proof.
  intros HI Hi. destruct (ph s) eqn:E; [reflexivity|..]; exfalso; (assert (X : ph s <> Alive) by congruence);
  destruct (i_ph HI X) as (_ & _ & Hd); unfold all_done in Hd; rewrite forallb_forall in Hd; specialize (Hd _ (nth_error_In _ _ Hi)); discriminate.
Qed.

Lemma Inv_step s l s' : Inv s -> step s l = Some s' -> Inv s'.
Proof.
  intros HI Hs. unfold step in Hs. destruct (ub s) eqn:Hu; [discriminate|]. destruct (term s) eqn:Ht; [discriminate|]. cbn [orb] in Hs. destruct l as [i|i|].
  - destruct (nth_error (users s) i) as [[|c r]|] eqn:Hi; try discriminate. injection Hs as <-. pose proof (users_alive _ HI Hi) as Ha.
    apply cmd_inv; auto; [|rewrite Ha; discriminate]. intros s1 _ Hp. apply user_put. congruence.
  - destruct (nth_error (workers s) i) as [[[|c r]|]|] eqn:Hi; try discriminate; injection Hs as <-.
    + pose proof HI as [A B C D E F G H I]. assert (Hl : i < length (workers s)) by (apply nth_error_Some; congruence).
      assert (Hne : forall j, ended (MkX (closed s) (ph s) (users s) (upd (workers s) i Ended) false false (EEnd i :: hist s)) j <-> ended s j \/ j = i).
      { intros j. unfold ended. cbn [workers]. destruct (Nat.eq_dec j i) as [->|Hn]; [rewrite (upd_same _ _ _ Hi); tauto|rewrite upd_other by exact Hn; tauto]. }
      assert (Hng : ~ In EGone (hist s)). { intros X. apply F in X. specialize (G X i Hl). unfold ended in G. congruence. }
      split; cbn [closed ph users workers ub term hist]; rewrite ?upd_length; auto.
      * rewrite A. split; intros (u & Hin); exists u; [right|destruct Hin as [X|X]; [discriminate|]]; auto.
      * intros j. rewrite B. split; intros (u & Hin); exists u; [right|destruct Hin as [X|X]; [discriminate|]]; auto.
      * intros j. rewrite Hne, C. cbn [In]. split; [intros [X| ->]; auto|]. intros [X|X]; [injection X as ->; auto|auto].
      * intros X. destruct (D X) as (D1 & D2 & D3). split; [auto|]. split; [right; auto|auto].
      * intros k Hk j H1 H2. apply Hne. left. eauto.
      * rewrite F. split; [right; auto|]. intros [X|X]; [discriminate|auto].
      * intros X j Hj. apply Hne. left. auto.
      * cbn. split; [|auto]. split; [auto|]. split; [apply B; auto|]. rewrite <- C. unfold ended. congruence.
      * discriminate.
    + apply cmd_inv; auto.
      * intros s1 Hw _. eapply worker_put; eauto.
      * intros _. exists i. split; [apply nth_error_Some; congruence|]. unfold ended. congruence.
  - pose proof HI as [A B C D E F G H I]. destruct (ph s) as [| |k|] eqn:Ep; try discriminate.
    + destruct (all_done (users s)) eqn:Ed; [|discriminate]. injection Hs as <-.
      split; cbn [closed ph users workers ub term hist]; auto.
      * split; [|auto]. intros _. exists Dtor. left. reflexivity.
      * intros i. rewrite B. split; intros (u & Hin); exists u; [right|destruct Hin as [X|X]; [discriminate|]]; auto.
      * intros i. specialize (C i). unfold ended in *. cbn [workers]. rewrite C. split; [right; auto|]. intros [X|X]; [discriminate|auto].
      * intros _. split; [auto|]. split; [left; auto|auto].
      * discriminate.
      * split; [discriminate|]. intros [X|X]; [discriminate|]. apply F in X. discriminate.
      * discriminate.
      * cbn. split; [|auto]. split; [|auto]. intros X. apply F in X. discriminate.
      * discriminate.
    + injection Hs as <-. split; cbn [closed ph users workers ub term hist]; auto.
      * intros _. apply D. discriminate.
      * intros j [= <-] i Hi. lia.
      * split; [discriminate|]. intros X. apply F in X. discriminate.
      * discriminate.
      * discriminate.
    + destruct (nth_error (workers s) k) as [[r|]|] eqn:Hk; try discriminate; injection Hs as <-.
      * split; cbn [closed ph users workers ub term hist]; auto.
        -- intros _. apply D. discriminate.
        -- intros j [= <-] i Hi Hl. unfold ended. cbn [workers]. destruct (Nat.eq_dec i k) as [->|]; [exact Hk|]. apply (E k eq_refl i); auto; lia.
        -- split; [discriminate|]. intros X. apply F in X. discriminate.
        -- discriminate.
        -- discriminate.
      * assert (Hlk : length (workers s) <= k) by (apply nth_error_None; exact Hk).
        assert (Hall : forall i, i < length (workers s) -> ended s i) by (intros i Hi; apply (E k eq_refl i); auto; lia).
        split; cbn [closed ph users workers ub term hist]; auto.
        -- rewrite A. split; intros (u & Hin); exists u; [right|destruct Hin as [X|X]; [discriminate|]]; auto.
        -- intros i. rewrite B. split; intros (u & Hin); exists u; [right|destruct Hin as [X|X]; [discriminate|]]; auto.
        -- intros i. specialize (C i). unfold ended in *. cbn [workers]. rewrite C. split; [right; auto|]. intros [X|X]; [discriminate|auto].
        -- intros _. destruct (D ltac:(discriminate)) as (D1 & D2 & D3). split; [auto|]. split; [right; auto|auto].
        -- discriminate.
        -- split; [left; auto|auto].
        -- cbn. split; [|auto]. split; [intros X; apply F in X; discriminate|]. intros u i Hin. apply C. apply Hall. apply B. eauto.
        -- discriminate.
Qed.
Lemma Inv_reach us s : reach us s -> Inv s.
Proof.
  induction 1 as [|s l s' Hr IH Hs]; [|eapply Inv_step; eauto].
  split; try (cbn; discriminate).
  - split; [discriminate|]. intros (w & []).
  - intros i. split; [cbn; lia|]. intros (w & []).
  - intros i. split; [|intros []]. unfold ended. cbn. destruct i; discriminate.
  - cbn. congruence.
  - split; [discriminate|intros []].
  - exact I.
Qed.

(** ** Termination *)
Fixpoint csize (c : cmd) : nat :=
  match c with
  | Submit k _ => 4 + (fix sz (l : list cmd) : nat := match l with [] => 0 | x :: r => csize x + sz r end) k
  | _ => 1
  end.
Fixpoint lsize (l : list cmd) : nat := match l with [] => 0 | x :: r => csize x + lsize r end.
Fixpoint usize (l : list (list cmd)) : nat := match l with [] => 0 | x :: r => lsize x + usize r end.
Definition w1 (x : wst) : nat := match x with Running r => 1 + lsize r | Ended => 0 end.
Fixpoint wsize (l : list wst) : nat := match l with [] => 0 | x :: r => w1 x + wsize r end.
Definition psize (n : nat) (p : phase) : nat := match p with Alive => 3 + n | Closing => 2 + n | Joining k => S (n - k) | Gone => 0 end.
Definition size (s : cfg) : nat := usize (users s) + wsize (workers s) + psize (length (workers s)) (ph s) + (if ub s || term s then 0 else 1).

Lemma csize_pos c : 0 < csize c.
Proof. destruct c; cbn; lia. Qed.
Lemma csize_submit k ct : csize (Submit k ct) = 4 + lsize k.
Proof. cbn. do 4 f_equal; try reflexivity. Qed.
Lemma usize_upd l i x y : nth_error l i = Some y -> usize (upd l i x) + lsize y = usize l + lsize x.
Proof. revert i. induction l as [|z l IH]; intros [|i]; cbn; intros H; try discriminate; [injection H as ->; lia|]. specialize (IH _ H). lia. Qed.
Lemma wsize_upd l i x y : nth_error l i = Some y -> wsize (upd l i x) + w1 y = wsize l + w1 x.
Proof. revert i. induction l as [|z l IH]; intros [|i]; cbn [nth_error upd wsize]; intros H; try discriminate; [injection H as ->; lia|]. specialize (IH _ H). lia. Qed.
Lemma wsize_app l x : wsize (l ++ [x]) = wsize l + w1 x.
Proof. induction l as [|z l IH]; cbn [app wsize]; lia. Qed.

Lemma step_size s l s' : step s l = Some s' -> size s' < size s.
Proof.
  intros Hs. unfold step in Hs. destruct (ub s) eqn:Hu; [discriminate|]. destruct (term s) eqn:Ht; [discriminate|]. cbn [orb] in Hs. destruct l as [i|i|].
  - destruct (nth_error (users s) i) as [[|c r]|] eqn:Hi; try discriminate. injection Hs as <-. pose proof (usize_upd _ _ r Hi) as HU. cbn [lsize] in HU. pose proof (csize_pos c).
    unfold size. rewrite Hu, Ht. destruct c as [k ct| | |]; cbn [do_cmd]; [rewrite csize_submit in *| | |]; try destruct (mutex_gone (ph s)); try destruct (closed s); cbn [orb put_user users workers ph ub term]; rewrite ?orb_true_r, ?Hu, ?Ht; cbn [orb]; try lia.
    rewrite wsize_app, app_length. cbn [w1 length]. destruct (ph s); cbn [psize]; lia.
  - destruct (nth_error (workers s) i) as [[[|c r]|]|] eqn:Hi; try discriminate; injection Hs as <-.
    + pose proof (wsize_upd _ _ Ended Hi) as HU. cbn [w1 lsize] in HU. unfold size. cbn [put_worker users workers ph ub term]. rewrite upd_length, Hu, Ht. cbn. lia.
    + pose proof (wsize_upd _ _ (Running r) Hi) as HU. cbn [w1 lsize] in HU. pose proof (csize_pos c).
      unfold size. rewrite Hu, Ht. destruct c as [k ct| | |]; cbn [do_cmd]; [rewrite csize_submit in *| | |]; try destruct (mutex_gone (ph s)); try destruct (closed s); cbn [put_worker users workers ph ub term]; try destruct ct; cbn [put_worker users workers ph ub term orb]; rewrite ?upd_length, ?orb_true_r, ?Hu, ?Ht; cbn [orb]; try lia.
      all: assert (Hn : nth_error (workers s ++ [Running k]) i = Some (Running (Submit k true :: r)) \/ nth_error (workers s ++ [Running k]) i = Some (Running (Submit k false :: r))) by (rewrite nth_error_app1; [auto|apply nth_error_Some; congruence]).
      all: destruct Hn as [Hn|Hn]; pose proof (wsize_upd _ _ (Running r) Hn) as HV; cbn [w1 lsize] in HV; rewrite csize_submit in HV; rewrite wsize_app in HV; cbn [w1] in HV; rewrite app_length; cbn [length];
        destruct (ph s); cbn [psize]; lia.
  - unfold size. rewrite Hu, Ht. destruct (ph s) as [| |k|] eqn:Ep; try discriminate.
    + destruct (all_done (users s)) eqn:Ed; [|discriminate]. injection Hs as <-. cbn [users workers ph ub term]. rewrite ?Hu, ?Ht. cbn [orb psize]. lia.
    + injection Hs as <-. cbn [users workers ph ub term]. rewrite ?Hu, ?Ht. cbn [orb psize]. lia.
    + destruct (nth_error (workers s) k) as [[r|]|] eqn:Hk; try discriminate; injection Hs as <-; cbn [users workers ph ub term]; rewrite ?Hu, ?Ht; cbn [orb psize].
      * assert (k < length (workers s)) by (apply nth_error_Some; congruence). lia.
      * lia.
Qed.

Lemma steps_size s n s' : steps s n s' -> n + size s' <= size s.
Proof. induction 1 as [|s l s1 n s2 H1 H2 IH]; [lia|]. apply step_size in H1. lia. Qed.

Lemma worker_steps s i r : ub s = false -> term s = false -> nth_error (workers s) i = Some (Running r) -> exists s', step s (LWorker i) = Some s'.
Proof. intros Hu Ht Hi. unfold step. rewrite Hu, Ht, Hi. destruct r; cbn [orb]; eauto. Qed.
Lemma user_steps s i c r : ub s = false -> term s = false -> nth_error (users s) i = Some (c :: r) -> exists s', step s (LUser i) = Some s'.
Proof. intros Hu Ht Hi. unfold step. rewrite Hu, Ht, Hi. cbn [orb]; eauto. Qed.

Lemma stuck_end us s : reach us s -> stuck s -> ub s = true \/ term s = true \/ ph s = Gone.
Proof.
  intros Hr Hs. pose proof (Inv_reach Hr) as HI. destruct (ub s) eqn:Hu; [auto|]. destruct (term s) eqn:Ht; [auto|]. right. right.
  destruct (all_done (users s)) eqn:Ed.
  - pose proof (Hs LDtor) as Hd. unfold step in Hd. rewrite Hu, Ht, Ed in Hd. cbn [orb] in Hd. destruct (ph s) as [| |k|] eqn:Ep; try discriminate; [|auto].
    destruct (nth_error (workers s) k) as [[r|]|] eqn:Hk; try discriminate. exfalso. destruct (worker_steps _ _ Hu Ht Hk) as (s' & H). rewrite Hs in H. discriminate.
  - exfalso. assert (X : exists i c r, nth_error (users s) i = Some (c :: r)).
    { clear - Ed. induction (users s) as [|u l IH]; [discriminate|]. destruct u as [|c r]; [|exists 0, c, r; reflexivity]. destruct (IH Ed) as (i & c & r & H). exists (S i), c, r. exact H. }
    destruct X as (i & c & r & Hi). destruct (user_steps _ _ Hu Ht Hi) as (s' & H). rewrite Hs in H. discriminate.
Qed.

Lemma Forall_upd A (Q : A -> Prop) (l : list A) i x : Forall Q l -> Q x -> Forall Q (upd l i x).
Proof. intros H. revert i. induction H as [|y l Hy H IH]; intros [|i] Hx; cbn; auto. Qed.
Lemma Forall_nth A (Q : A -> Prop) l i x : Forall Q l -> nth_error l i = Some x -> Q x.
Proof. intros H Hi. rewrite Forall_forall in H. apply H. eapply nth_error_In; eauto. Qed.

(** a property of commands that is inherited by what is left to do *)
Section Kept.
  Variables (QU QW : cmd -> Prop).
  Hypothesis HQU : forall k ct, QU (Submit k ct) -> Forall QW k.
  Hypothesis HQW : forall k ct, QW (Submit k ct) -> Forall QW k.
  Definition wq (x : wst) : Prop := match x with Running r => Forall QW r | Ended => True end.
  Definition kept (s : cfg) : Prop := Forall (Forall QU) (users s) /\ Forall wq (workers s).
  Lemma kept_step s l s' : kept s -> step s l = Some s' -> kept s'.
  Proof.
    intros (HA & HB) Hs. unfold step in Hs. destruct (ub s) eqn:Hu; [discriminate|]. destruct (term s) eqn:Ht; [discriminate|]. cbn [orb] in Hs. destruct l as [i|i|].
    - destruct (nth_error (users s) i) as [[|c r]|] eqn:Hi; try discriminate. injection Hs as <-. pose proof (Forall_nth _ HA Hi) as Hc. inversion Hc as [|? ? Hc1 Hc2]; subst.
      destruct c as [k ct| | |]; cbn [do_cmd]; try destruct (mutex_gone (ph s)); try destruct (closed s); cbn [orb put_user]; split; cbn [users workers]; auto; try (apply Forall_upd; auto).
      apply Forall_app. split; auto. constructor; auto. cbn. eauto.
    - destruct (nth_error (workers s) i) as [[[|c r]|]|] eqn:Hi; try discriminate; injection Hs as <-.
      + split; cbn [users workers]; auto. apply Forall_upd; cbn; auto.
      + pose proof (Forall_nth _ HB Hi) as Hc. cbn in Hc. inversion Hc as [|? ? Hc1 Hc2]; subst.
        destruct c as [k ct| | |]; cbn [do_cmd]; try destruct (mutex_gone (ph s)); try destruct (closed s); try destruct ct; cbn [orb put_worker]; split; cbn [users workers]; auto; try (apply Forall_upd; auto);
        apply Forall_app; split; auto; constructor; auto; cbn; eauto.
    - destruct (ph s) as [| |k|] eqn:Ep; try discriminate.
      + destruct (all_done (users s)); [|discriminate]. injection Hs as <-. split; auto.
      + injection Hs as <-. split; auto.
      + destruct (nth_error (workers s) k) as [[r|]|]; try discriminate; injection Hs as <-; split; auto.
  Qed.
  Lemma kept_reach us s : Forall (Forall QU) us -> reach us s -> kept s.
  Proof. intros H. induction 1 as [|s l s' Hr IH Hs]; [split; auto; constructor|eapply kept_step; eauto]. Qed.
End Kept.

Lemma careful_submit k ct : careful (Submit k ct) -> ct = true /\ Forall careful k.
Proof. cbn [careful]. intros (H & Hk). split; auto. revert Hk. induction k as [|x k IH]; [constructor|]. intros (Hx & Hk). constructor; auto. Qed.

Lemma careful_term us s : Forall (Forall user_careful) us -> reach us s -> term s = false.
Proof.
  intros Hus. induction 1 as [|s l s' Hr IH Hs]; [reflexivity|].
  assert (HK : kept user_careful careful s).
  { eapply kept_reach; [intros k ct H; exact H|intros k ct H; eapply careful_submit; eauto|exact Hus|exact Hr]. }
  destruct HK as (_ & HB). unfold step in Hs. destruct (ub s) eqn:Hu; [discriminate|]. rewrite IH in Hs. cbn [orb] in Hs. destruct l as [i|i|].
  - destruct (nth_error (users s) i) as [[|c r]|] eqn:Hi; try discriminate. injection Hs as <-.
    destruct c as [k ct| | |]; cbn [do_cmd]; try destruct (mutex_gone (ph s)); try destruct (closed s); cbn; auto.
  - destruct (nth_error (workers s) i) as [[[|c r]|]|] eqn:Hi; try discriminate; injection Hs as <-; [cbn; auto|].
    pose proof (Forall_nth _ HB Hi) as Hc. cbn in Hc. inversion Hc as [|? ? Hc1 Hc2]; subst.
    destruct c as [k ct| | |]; cbn [do_cmd].
    + destruct (careful_submit Hc1) as (-> & _). destruct (mutex_gone (ph s)); [exact IH|]. destruct (closed s); exact IH.
    + destruct (mutex_gone (ph s)); exact IH.
    + destruct (mutex_gone (ph s)); exact IH.
    + destruct Hc1.
  - destruct (ph s) as [| |k|] eqn:Ep; try discriminate.
    + destruct (all_done (users s)); [|discriminate]. injection Hs as <-. auto.
    + injection Hs as <-. auto.
    + destruct (nth_error (workers s) k) as [[r|]|]; try discriminate; injection Hs as <-; auto.
Qed.

Lemma independent_alive us s : Forall (Forall independent) us -> reach us s -> ub s = false /\ term s = false.
Proof.
  intros Hus. induction 1 as [|s l s' Hr (IH1 & IH2) Hs]; [split; reflexivity|].
  assert (HK : kept independent (fun _ => False) s).
  { eapply kept_reach; [intros k ct H; cbn in H; subst; constructor|intros k ct []|exact Hus|exact Hr]. }
  pose proof (Inv_reach Hr) as HI. destruct HK as (_ & HB). unfold step in Hs. rewrite IH1, IH2 in Hs. cbn [orb] in Hs. destruct l as [i|i|].
  - destruct (nth_error (users s) i) as [[|c r]|] eqn:Hi; try discriminate. injection Hs as <-. pose proof (users_alive _ HI Hi) as Ha.
    destruct c as [k ct| | |]; cbn [do_cmd]; rewrite ?Ha; cbn [mutex_gone]; try destruct (closed s); cbn; auto.
  - destruct (nth_error (workers s) i) as [[[|c r]|]|] eqn:Hi; try discriminate; injection Hs as <-; [cbn; auto|].
    pose proof (Forall_nth _ HB Hi) as Hc. cbn in Hc. inversion Hc as [|? ? Hc1 Hc2]; destruct Hc1.
  - destruct (ph s) as [| |k|] eqn:Ep; try discriminate.
    + destruct (all_done (users s)); [|discriminate]. injection Hs as <-. auto.
    + injection Hs as <-. auto.
    + destruct (nth_error (workers s) k) as [[r|]|]; try discriminate; injection Hs as <-; auto.
Qed.

Lemma ub_late us s : reach us s -> ub s = true ->
  exists h2 h1 w i, hist s = h2 ++ EClose Dtor :: h1 /\ In (EAccept w i) h1 /\ ~ In (EEnd i) (hist s).
Proof.
  intros Hr Hu. pose proof (Inv_reach Hr) as HI. destruct (i_ub HI Hu) as (Hm & i & Hi & He).
  assert (Hp : ph s <> Alive) by (intros E; rewrite E in Hm; discriminate).
  destruct (i_ph HI Hp) as (_ & Hin & _). apply in_split in Hin as (h2 & h1 & E). exists h2, h1.
  apply (i_acc HI) in Hi as (w & Hw). exists w, i. split; [exact E|]. split.
  - rewrite E in Hw. apply in_app_or in Hw as [Hw|Hw]; [|destruct Hw as [Hw|Hw]; [discriminate|exact Hw]].
    exfalso. apply in_split in Hw as (h4 & h3 & E2). pose proof (i_hist HI) as HG. rewrite E, E2, <- app_assoc in HG. cbn [app] in HG.
    apply hgood_split in HG as (_ & HG & _). apply (HG Dtor). apply in_or_app. right. left. reflexivity.
  - rewrite <- (i_end HI). exact He.
Qed.


(** ** Running a given schedule *)
Fixpoint runl (s : cfg) (ls : list label) : option cfg := match ls with [] => Some s | l :: ls' => match step s l with Some s1 => runl s1 ls' | None => None end end.
Lemma reach_run us s ls s' : reach us s -> runl s ls = Some s' -> reach us s'.
Proof. revert s. induction ls as [|l ls IH]; cbn; intros s Hr H; [injection H as <-; exact Hr|]. destruct (step s l) as [s1|] eqn:E; [|discriminate]. eapply IH; [eapply reach_step; eauto|exact H]. Qed.
Fixpoint irunl (s : icfg) (ls : list nat) : option icfg := match ls with [] => Some s | l :: ls' => match istep s l with Some s1 => irunl s1 ls' | None => None end end.
Lemma ireach_run us s ls s' : ireach us s -> irunl s ls = Some s' -> ireach us s'.
Proof. revert s. induction ls as [|l ls IH]; cbn; intros s Hr H; [injection H as <-; exact Hr|]. destruct (istep s l) as [s1|] eqn:E; [|discriminate]. eapply IH; [eapply ireach_step; eauto|exact H]. Qed.
