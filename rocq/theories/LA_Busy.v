(** * boost::lock waits for the lockable that was found busy: proofs *)

From Verif Require Import LA_Proofs.
Set Implicit Arguments.

Section Busy.
  (** the lockable locked first *)
  Variable top : option nat.
  Definition Pw (x : nat) (tr : trace) : Prop := busy tr = Some x \/ (tr = [] /\ top = Some x).
  Definition good {A} (m : M A) (pre : trace -> Prop) (post : A -> trace -> Prop) : Prop :=
    forall h tr, pre tr -> match m h tr with Val a _ tr' => post a tr' | Pend (ALock x) tr' => Pw x tr' | _ => True end.

  Lemma good_ret A (a : A) (pre : trace -> Prop) (post : A -> trace -> Prop) : (forall tr, pre tr -> post a tr) -> good (ret a) pre post.
  Proof. intros H h tr Hp. exact (H _ Hp). Qed.
  Lemma good_bind A B (m : M A) (f : A -> M B) pre mid post :
    good m pre mid -> (forall a, good (f a) (mid a) post) -> good (bind m f) pre post.
  Proof.
    intros Hm Hf h tr Hp. unfold bind. specialize (Hm h tr Hp). destruct (m h tr) as [a h' tr'|h' tr'|a tr'|]; auto. apply Hf. exact Hm.
  Qed.
  Lemma good_weak A (m : M A) (pre pre' : trace -> Prop) (post post' : A -> trace -> Prop) :
    good m pre post -> (forall tr, pre' tr -> pre tr) -> (forall a tr, post a tr -> post' a tr) -> good m pre' post'.
  Proof.
    intros Hm H1 H2 h tr Hp. specialize (Hm h tr (H1 _ Hp)). destruct (m h tr) as [a h' tr'|h' tr'|a tr'|]; auto.
  Qed.
  Lemma good_unwinding A d (m : M A) pre post :
    good m pre post -> good d (fun _ => True) (fun _ _ => True) -> good (unwinding d m) pre post.
  Proof.
    intros Hm Hd h tr Hp. unfold unwinding. specialize (Hm h tr Hp). destruct (m h tr) as [a h' tr'|h' tr'|a tr'|]; auto.
    unfold bind. specialize (Hd h' tr' I). destruct (d h' tr') as [a h2 tr2|h2 tr2|a tr2|]; auto.
  Qed.
  Lemma good_lock m (pre : trace -> Prop) : (forall tr, pre tr -> Pw m tr) -> good (do_lock m) pre (fun _ _ => True).
  Proof. intros H h tr Hp. unfold do_lock, bind, perform. destruct h as [|[] h]; cbn; auto. Qed.
  Lemma good_try m (pre : trace -> Prop) : good (do_try m) pre (fun b tr => b = false -> busy tr = Some m).
  Proof. intros h tr Hp. unfold do_try, bind, perform. destruct h as [|[] h]; cbn; auto. discriminate. Qed.
  Lemma good_unlock m (pre : option nat -> Prop) : good (do_unlock m) (fun tr => pre (busy tr)) (fun _ tr => pre (busy tr)).
  Proof. intros h tr Hp. unfold do_unlock, bind, perform. destruct h as [|[] h]; cbn; auto. Qed.
  Lemma good_any m : good (do_unlock m) (fun _ => True) (fun _ _ => True).
  Proof. apply (@good_unlock m (fun _ => True)). Qed.
  Lemma good_unlock_all ms (pre : option nat -> Prop) : good (unlock_all ms) (fun tr => pre (busy tr)) (fun _ tr => pre (busy tr)).
  Proof. induction ms as [|m ms IH]; cbn [unlock_all]; [apply good_ret; auto|]. eapply good_bind; [apply good_unlock|]. intros []. exact IH. Qed.
  Lemma good_unlock_all_any ms : good (unlock_all ms) (fun _ => True) (fun _ _ => True).
  Proof. apply (@good_unlock_all ms (fun _ => True)). Qed.

  Definition fint (ms : list nat) (f : nat) (tr : trace) : Prop := f = 0 \/ exists i x, f = S i /\ nth_error ms i = Some x /\ busy tr = Some x.
  Lemma good_try_internal ms : good (try_internal ms) (fun _ => True) (fint ms).
  Proof.
    induction ms as [|m ms IH]; cbn [try_internal].
    - apply good_ret. intros tr _. left. reflexivity.
    - assert (H1 : good (b <- do_try m ;; ret (if b : bool then 0 else 1)) (fun _ => True) (fint (m :: ms))).
      { eapply good_bind; [apply good_try|]. intros []; apply good_ret; cbn beta.
        - intros tr _. exact (or_introl eq_refl).
        - intros tr H. right. exists 0, m. auto. }
      destruct ms as [|m2 ms]; [exact H1|]. eapply good_bind; [apply good_try|]. intros []; cbn [negb].
      + eapply good_bind; [apply good_unwinding; [eapply good_weak; [exact IH|intros; exact I|intros a tr H; exact H]|apply good_any]|].
        intros f. destruct (Nat.eqb_spec f 0).
        * apply good_ret. intros tr _. left. reflexivity.
        * eapply good_bind with (mid := fun _ tr => fint (m2 :: ms) f tr).
          -- eapply good_weak; [apply (@good_unlock m (fun b => f = 0 \/ exists i x, f = S i /\ nth_error (m2 :: ms) i = Some x /\ b = Some x))| |]; intros; assumption.
          -- intros []. apply good_ret. intros tr [->|(i & x & -> & Hx & Hb)]; [congruence|].
             right. exists (S i), x. split; [lia|]. split; auto.
      + apply good_ret. intros tr H. right. exists 0, m. auto.
  Qed.

  Lemma good_lock_helper ms (pre : trace -> Prop) : (forall x tr, hd_error ms = Some x -> pre tr -> Pw x tr) ->
    good (lock_helper ms) pre (fun f tr => f = 0 \/ exists x, nth_error ms f = Some x /\ busy tr = Some x).
  Proof.
    intros Hp. destruct ms as [|m ms]; cbn [lock_helper].
    - apply good_ret. auto.
    - eapply good_bind; [apply good_lock; intros tr H; apply Hp; [reflexivity|exact H]|]. intros []. 
      eapply good_bind; [apply good_unwinding; [apply good_try_internal|apply good_any]|]. intros f. destruct (Nat.eqb_spec f 0).
      + apply good_ret. auto.
      + eapply good_bind with (mid := fun _ tr => fint ms f tr).
        * eapply good_weak; [apply (@good_unlock m (fun b => f = 0 \/ exists i x, f = S i /\ nth_error ms i = Some x /\ b = Some x))| |]; intros; assumption.
        * intros []. apply good_ret. intros tr [->|(i & x & -> & Hx & Hb)]; [congruence|]. right. eauto.
  Qed.

  Lemma rot_nth (ms : list nat) k f x : k < length ms -> nth_error (rot k ms) f = Some x ->
    nth_error ms ((f + k) mod length ms) = Some x.
  Proof.
    intros Hk H. unfold rot in H. assert (Hl : length (skipn k ms) = length ms - k) by apply skipn_length.
    destruct (Nat.lt_ge_cases f (length ms - k)) as [Hf|Hf].
    - rewrite nth_error_app1 in H by lia. rewrite Nat.mod_small by lia.
      rewrite <- (firstn_skipn k ms), nth_error_app2; rewrite firstn_length_le by lia; [|lia]. replace (f + k - k) with f by lia. exact H.
    - rewrite nth_error_app2 in H by lia. rewrite Hl in H.
      assert (Hf2 : f - (length ms - k) < k).
      { assert (f - (length ms - k) < length (firstn k ms)) by (apply nth_error_Some; congruence). rewrite firstn_length_le in H0 by lia. exact H0. }
      replace (f + k) with ((f - (length ms - k)) + 1 * length ms) by lia. rewrite Nat.mod_add by lia. rewrite Nat.mod_small by lia.
      remember (f - (length ms - k)) as g eqn:Eg. clear Eg.
      rewrite <- (firstn_skipn k ms), nth_error_app1; [exact H|]. rewrite firstn_length_le; lia.
  Qed.
  Lemma good_lock_loop fuel ms k x : nth_error ms k = Some x -> good (lock_loop fuel ms k) (Pw x) (fun _ _ => True).
  Proof.
    revert k x. induction fuel as [|fuel IH]; intros k x Hk; cbn [lock_loop]; [intros h tr Hp; exact I|].
    assert (Hlt : k < length ms) by (apply nth_error_Some; congruence).
    eapply good_bind.
    - apply good_lock_helper. intros y tr Hy Hp. replace y with x; [exact Hp|].
      assert (E : nth_error (rot k ms) 0 = Some y) by (destruct (rot k ms); cbn in *; congruence).
      apply rot_nth in E; auto. rewrite Nat.add_0_l, Nat.mod_small in E by lia. congruence.
    - intros f. destruct (Nat.eqb_spec f 0); [apply good_ret; auto|].
      intros h tr [->|(y & Hy & Hb)]; [congruence|].
      assert (Hf : f < length ms).
      { assert (Hf : f < length (rot k ms)) by (apply nth_error_Some; congruence). unfold rot in Hf. rewrite app_length, skipn_length, firstn_length_le in Hf; lia. }
      apply (rot_nth _ _ Hlt) in Hy. destruct (Nat.eqb_spec k 0) as [->|].
      + rewrite Nat.add_0_r, Nat.mod_small in Hy by lia. apply (IH _ _ Hy). left. exact Hb.
      + apply (IH _ _ Hy). left. exact Hb.
  Qed.

  Definition frng (ms : list nat) (f : nat) (tr : trace) : Prop := f = length ms \/ exists x, nth_error ms f = Some x /\ busy tr = Some x.
  Lemma good_try_range ms : good (try_range ms) (fun _ => True) (frng ms).
  Proof.
    induction ms as [|m ms IH]; cbn [try_range].
    - apply good_ret. intros tr _. left. reflexivity.
    - eapply good_bind; [apply good_try|]. intros []; cbn [negb].
      + eapply good_bind; [apply good_unwinding; [eapply good_weak; [exact IH|intros; exact I|intros a tr H; exact H]|apply good_any]|].
        intros f. destruct (Nat.eqb_spec f (length ms)) as [E|E].
        * apply good_ret. intros tr _. left. cbn. lia.
        * eapply good_bind with (mid := fun _ tr => frng ms f tr).
          -- eapply good_weak; [apply (@good_unlock m (fun b => f = length ms \/ exists x, nth_error ms f = Some x /\ b = Some x))| |]; intros; assumption.
          -- intros []. apply good_ret. intros tr [->|(x & Hx & Hb)]; [congruence|]. right. exists x. auto.
      + apply good_ret. intros tr H. right. exists m. auto.
  Qed.

  Lemma good_range fuel :
    (forall ms, good (range_lock fuel ms) (fun tr => forall x, hd_error ms = Some x -> Pw x tr) (fun _ _ => True)) /\
    (forall first rest, good (range_loop fuel first rest true 0) (Pw first) (fun _ _ => True)) /\
    (forall first rest next, good (range_loop fuel first rest false next) (fun tr => exists x, nth_error rest next = Some x /\ Pw x tr) (fun _ _ => True)).
  Proof.
    induction fuel as [|fuel (IH1 & IH2 & IH3)]; cbn [range_lock range_loop].
    { repeat split; intros; intros h tr Hp; exact I. }
    split; [|split].
    - intros [|m ms].
      + apply good_ret; auto.
      + eapply good_weak; [apply IH2| |auto]. intros tr H. apply H. reflexivity.
    - intros first rest. eapply good_bind; [apply good_lock; auto|]. intros []. 
      eapply good_bind; [apply good_unwinding; [apply good_try_range|apply good_any]|]. intros f. cbn [skipn].
      destruct (Nat.eqb_spec f (length rest)) as [E|E]; [apply good_ret; auto|].
      eapply good_bind with (mid := fun _ tr => frng rest f tr).
      + eapply good_weak; [apply (@good_unlock first (fun b => f = length rest \/ exists x, nth_error rest f = Some x /\ b = Some x))| |]; intros; assumption.
      + intros []. eapply good_weak; [apply IH3| |auto]. intros tr [->|(x & Hx & Hb)]; [congruence|]. exists x. split; [exact Hx|left; exact Hb].
    - intros first rest next. eapply good_bind; [eapply good_weak; [apply IH1| |intros a tr H; exact H]|].
      { intros tr (x & Hx & Hp) y Hy. replace y with x; [exact Hp|]. rewrite <- (firstn_skipn next rest) in Hx.
        assert (Hl : next < length rest). { apply nth_error_Some. rewrite firstn_skipn in Hx. congruence. }
        rewrite nth_error_app2, firstn_length_le in Hx by (try rewrite firstn_length_le; lia). rewrite Nat.sub_diag in Hx.
        destruct (skipn next rest); cbn in *; congruence. }
      intros []. eapply good_bind; [apply good_unwinding; [apply good_try|apply good_unlock_all_any]|]. intros []; cbn [negb].
      + eapply good_bind; [apply good_unwinding; [eapply good_weak; [apply good_try_range|intros; exact I|intros a tr H; exact H]|]|].
        * eapply good_bind; [apply good_unlock_all_any|]. intros []. apply good_any.
        * intros f. destruct (Nat.eqb_spec f (length (firstn next rest))) as [E|E]; [apply good_ret; auto|].
          set (Q := fun b : option nat => f = length (firstn next rest) \/ exists x, nth_error (firstn next rest) f = Some x /\ b = Some x).
          eapply good_bind with (mid := fun _ tr => Q (busy tr)); [apply good_unlock_all with (pre := Q)|]. intros []. 
          eapply good_bind with (mid := fun _ tr => Q (busy tr)); [apply good_unlock with (pre := Q)|]. intros []. 
          eapply good_weak; [apply IH3| |auto]. intros tr [->|(x & Hx & Hb)]; [congruence|]. exists x. split; [|left; exact Hb].
          rewrite <- (firstn_skipn next rest), nth_error_app1; [exact Hx|]. apply nth_error_Some. congruence.
      + eapply good_bind with (mid := fun _ tr => busy tr = Some first).
        * eapply good_weak; [apply good_unlock_all with (pre := fun b => b = Some first)| |]; cbn beta; auto.
        * intros []. eapply good_weak; [apply IH2| |auto]. intros tr H. left. exact H.
  Qed.
End Busy.

Lemma lock_waits_for_busy c h m tr : run_lock c h = Pend (ALock m) tr -> busy tr = Some m \/ (tr = [] /\ hd_error (args c) = Some m).
Proof.
  intros H. unfold run_lock in H. destruct c as [ms|ms]; unfold lock_body in H; cbn [args] in *; remember (3 + 2 * length h + 2 * length ms) as fuel eqn:Ef; clear Ef.
  - destruct ms as [|x ms]; [destruct fuel; [discriminate|]; cbn in H; discriminate|].
    pose proof (@good_lock_loop (Some x) fuel (x :: ms) 0 x eq_refl h []) as Hg. rewrite H in Hg. apply Hg. right. auto.
  - destruct (good_range (hd_error ms) fuel) as (Hg & _). specialize (Hg ms h []). cbn beta in Hg. rewrite H in Hg. apply Hg. intros x Hx. right. auto.
Qed.
