(** Timed joins: the check after the deadline. *)
From Verif Require Import MonTrace MonWake JN_Model JN_Spec JN_Frag JN_Proofs.
Import ListNotations.

Definition goodk (k : jk) : Prop :=
  match k with
  | JDeadline | JWaitDone _ | JWaitJoined | JOs | JOsWait | JSet | JReset => True
  | JDrop r => r <> RTimedOut
  | _ => False
  end.
Definition goodx (x : tst) : Prop := match x with Ready _ _ _ k | Asleep _ _ _ k => goodk k | _ => True end.

Lemma frag_good u e k s s' ns o : jfrag u e k s = (s', ns, o) -> dn s = true ->
  dn s' = true /\ (goodk k -> forall l t op h, goodx (fst (after jnprog t l op o h)) /\
    (forall op' , snd (after jnprog t l op o h) = EDone t op' RTimedOut :: h -> False)).
Proof.
  intros H D. unfold jfrag, seen_done, drop_ref, set_ph in H. destruct k as [op0|tm|tm| | | | | | |r0| | | | | |]; try destruct op0;
    repeat match type of H with context [if ?b then _ else _] => destruct b eqn:?; cbn in H end;
    injection H as <- <- <-; (split; [cbn; auto; congruence|]); intros HG l t op h; cbn in HG; try contradiction; try congruence;
    (split; [cbn; try exact I; try discriminate; auto|]); intros op' Hx; cbn in Hx; try (apply (f_equal (@length _)) in Hx; cbn in Hx; lia);
    injection Hx as _ Hx; try discriminate; congruence.
Qed.

Section Late.
  Variables (n : nat) (c3 : jnconf) (t : nat) (x : tst).
  Hypothesis D3 : dn (sh c3) = true.
  Hypothesis X3 : nth_error (thr c3) t = Some x.
  Hypothesis G3 : goodx x.

  Definition late (c : jnconf) : Prop := exists h, hist c = h ++ hist c3 /\ dn (sh c) = true /\
    ((exists op, In (ECall jres t op) h) \/
     ((forall op, ~ In (EDone t op RTimedOut) h) /\ exists y, nth_error (thr c) t = Some y /\ goodx y)).

  Lemma late_run ls c : run jnprog c3 ls = Some c -> late c.
  Proof.
    revert ls c. apply (@run_snoc_ind _ _ _ _ _ _ _ jnprog c3 (fun _ c => late c)).
    - exists []. split; [reflexivity|]. split; [exact D3|]. right. split; [intros op []|]. eauto.
    - intros ls c lb c' _ (h & Hh & Hd & Hc) Hs. apply step_inv in Hs. destruct Hs as
       [u l op Ht Hp ->|u ps e l op k s' ns o thr' Ht Hfr Hd' ->|u p l m ns thr' Ht Hd' ->
       |u l op cv k Ht ->|u l op cv k k' Ht Hk ->|u l op cv k k' Ht Hk ->|u l op k k' Ht Hk ->]; cbn [hist sh thr].
      + exists (ECall jres u op :: h). cbn [hist sh thr]. split; [rewrite Hh; reflexivity|]. split; [exact Hd|].
        destruct Hc as [(op' & Hc)|(Hn & y & Hy & Hg)]; [left; exists op'; right; exact Hc|].
        destruct (Nat.eq_dec u t) as [->|Hne]; [left; exists op; left; reflexivity|right].
        split; [intros op' [Hx|Hx]; [discriminate|exact (Hn _ Hx)]|]. exists y. rewrite nth_error_upd_other by auto. auto.
      + destruct (frag_good _ _ _ _ _ _ _ Hfr Hd) as [Ds Hgd].
        assert (Hah : exists h0, snd (after jnprog u l op o (hist c)) = h0 ++ hist c /\ (h0 = [] \/ exists r, h0 = [EDone u op r])).
        { destruct o; cbn; try (exists []; auto; fail); eexists [_]; split; try reflexivity; eauto. }
        destruct Hah as (h0 & Hah & Hh0). exists (h0 ++ h). cbn [hist sh thr]. rewrite Hah. split; [rewrite Hh, app_assoc; reflexivity|]. split; [exact Ds|].
        destruct Hc as [(op' & Hc)|(Hn & y & Hy & Hg)]; [left; exists op'; apply in_or_app; auto|right].
        destruct (Nat.eq_dec u t) as [->|Hne].
        * rewrite Ht in Hy. injection Hy as <-. destruct (Hgd Hg l t op (hist c)) as [Hg1 Hg2]. split.
          -- intros op' Hx. apply in_app_or in Hx as [Hx|Hx]; [|exact (Hn _ Hx)].
             destruct Hh0 as [->|[r ->]]; [exact Hx|]. destruct Hx as [Hx|[]]. injection Hx as -> ->. exact (Hg2 _ Hah).
          -- exists (fst (after jnprog t l op o (hist c))). split; [|exact Hg1]. apply nth_error_upd_same.
             rewrite (woken_length (deliver_all_woken Hd')). apply nth_error_Some. congruence.
        * split.
          -- intros op' Hx. apply in_app_or in Hx as [Hx|Hx]; [|exact (Hn _ Hx)].
             destruct Hh0 as [->|[r ->]]; [exact Hx|]. destruct Hx as [Hx|[]]. injection Hx as Hx _ _. congruence.
          -- rewrite nth_error_upd_other by auto. destruct (deliver_all_woken Hd') as [_ Hw]. destruct (Hw t y Hy) as [H|[Ha H]].
             ++ exists y. auto.
             ++ exists (wake y). split; [exact H|]. destruct y; try discriminate Ha. exact Hg.
      + exists h. cbn [hist sh thr]. split; [exact Hh|]. split; [exact Hd|]. destruct Hc as [Hc|(Hn & y & Hy & Hg)]; [left; exact Hc|right]. split; [exact Hn|].
        destruct (Nat.eq_dec u t) as [->|Hne].
        * exists (finish jk jop l ns). split; [|unfold finish; destruct ns; exact I]. apply nth_error_upd_same.
          rewrite (woken_length (deliver_woken Hd')). apply nth_error_Some. congruence.
        * rewrite nth_error_upd_other by auto. destruct (deliver_woken Hd') as [_ Hw]. destruct (Hw t y Hy) as [H|[Ha H]].
          -- exists y. auto.
          -- exists (wake y). split; [exact H|]. destruct y; try discriminate Ha. exact Hg.
      + exists h. cbn [hist sh thr]. split; [exact Hh|]. split; [exact Hd|]. destruct Hc as [Hc|(Hn & y & Hy & Hg)]; [left; exact Hc|right]. split; [exact Hn|].
        destruct (Nat.eq_dec u t) as [->|Hne].
        * rewrite Ht in Hy. injection Hy as <-. eexists. split; [apply nth_error_upd_same; apply nth_error_Some; congruence|]. exact Hg.
        * exists y. rewrite nth_error_upd_other by auto. auto.
      + exists h. cbn [hist sh thr]. split; [exact Hh|]. split; [exact Hd|]. destruct Hc as [Hc|(Hn & y & Hy & Hg)]; [left; exact Hc|right]. split; [exact Hn|].
        destruct (Nat.eq_dec u t) as [->|Hne].
        * eexists. split; [apply nth_error_upd_same; apply nth_error_Some; congruence|]. cbn in Hk. destruct k as [| |[]| | | | | | | | | | | | |]; try discriminate.
          injection Hk as <-. exact I.
        * exists y. rewrite nth_error_upd_other by auto. auto.
      + exists h. cbn [hist sh thr]. split; [exact Hh|]. split; [exact Hd|]. destruct Hc as [Hc|(Hn & y & Hy & Hg)]; [left; exact Hc|right]. split; [exact Hn|].
        destruct (Nat.eq_dec u t) as [->|Hne].
        * eexists. split; [apply nth_error_upd_same; apply nth_error_Some; congruence|]. cbn in Hk. destruct k; try discriminate;
            injection Hk as <-; cbn; discriminate.
        * exists y. rewrite nth_error_upd_other by auto. auto.
      + exists h. cbn [hist sh thr]. split; [exact Hh|]. split; [exact Hd|]. destruct Hc as [Hc|(Hn & y & Hy & Hg)]; [left; exact Hc|right]. split; [exact Hn|].
        destruct (Nat.eq_dec u t) as [->|Hne].
        * eexists. split; [apply nth_error_upd_same; apply nth_error_Some; congruence|]. cbn in Hk. destruct k; try discriminate;
            injection Hk as <-; cbn; discriminate.
        * exists y. rewrite nth_error_upd_other by auto. auto.
  Qed.
End Late.

(** the deadline passes for [t], which then does not move, up to [c3] *)
Lemma stays t ls c2 c3 l op : nth_error (thr c2) t = Some (Ready jcv l op JDeadline) -> run jnprog c2 ls = Some c3 ->
  (forall lb, In lb ls -> match lb with LRun _ u _ _ => u <> t | _ => True end) -> nth_error (thr c3) t = Some (Ready jcv l op JDeadline).
Proof.
  revert c2. induction ls as [|lb ls IH]; intros c2 H2 Hrun Hno; cbn in Hrun; [injection Hrun as <-; exact H2|].
  destruct (step jnprog c2 lb) as [d|] eqn:E; [|discriminate]. apply (IH d); [|exact Hrun|intros; apply Hno; now right].
  assert (Hlb := Hno lb (or_introl eq_refl)). destruct lb as [u op0|u ps e|u|u|u]; cbn [step] in E.
  - destruct (nth_error (thr c2) u) as [[]|] eqn:Eu; try discriminate. destruct (pre _ _ _); [|discriminate]. injection E as <-. cbn [thr].
    rewrite nth_error_upd_other; [exact H2|]. intros ->. congruence.
  - destruct (nth_error (thr c2) u) as [x|] eqn:Eu; [|discriminate]. destruct x as [|l' op' k| |l' [|m ns]|]; try discriminate.
    + destruct (frag jnprog u e k (sh c2)) as [[s' ns] o]. destruct (deliver_all _ ns ps (thr c2)) as [thr'|] eqn:Hd; [|discriminate].
      destruct (after jnprog u l' op' o (hist c2)). injection E as <-. cbn [thr]. rewrite nth_error_upd_other by auto.
      destruct (deliver_all_woken Hd) as [_ Hw]. destruct (Hw t _ H2) as [H|[Ha _]]; [exact H|discriminate].
    + destruct (deliver _ m (hd 0 ps) (thr c2)) as [thr'|] eqn:Hd; [|discriminate]. injection E as <-. cbn [thr]. rewrite nth_error_upd_other by auto.
      destruct (deliver_woken Hd) as [_ Hw]. destruct (Hw t _ H2) as [H|[Ha _]]; [exact H|discriminate].
  - destruct (nth_error (thr c2) u) as [[]|] eqn:Eu; try discriminate. injection E as <-. cbn [thr].
    rewrite nth_error_upd_other; [exact H2|]. intros ->. congruence.
  - destruct (nth_error (thr c2) u) as [[]|] eqn:Eu; try discriminate. destruct (on_timeout _ _); [|discriminate]. injection E as <-. cbn [thr].
    rewrite nth_error_upd_other; [exact H2|]. intros ->. congruence.
  - destruct (nth_error (thr c2) u) as [x|] eqn:Eu; [|discriminate]. destruct x as [|l' op' k|l' op' cv k| |]; try discriminate;
      destruct (on_intr _ k) eqn:Ei; try discriminate; injection E as <-; cbn [thr]; (rewrite nth_error_upd_other; [exact H2|]);
      intros ->; rewrite H2 in Eu; try discriminate; injection Eu as <- <- <-; discriminate Ei.
Qed.

Lemma timed_join_late n c1 c2 c3 c4 t ls ls' h : reachable jnprog n jinit tt c1 -> step jnprog c1 (LTimeout jop unit t) = Some c2 ->
  run jnprog c2 ls = Some c3 -> (forall lb, In lb ls -> match lb with LRun _ u _ _ => u <> t | _ => True end) -> dn (sh c3) = true ->
  run jnprog c3 ls' = Some c4 -> hist c4 = h ++ hist c3 -> (forall op, ~ In (ECall jres t op) h) -> forall op, ~ In (EDone t op RTimedOut) h.
Proof.
  intros _ H1 H2 Hno Hd H4 Hh Hnc op.
  cbn [step] in H1. destruct (nth_error (thr c1) t) as [[| |l op' cv k| |]|] eqn:Et; try discriminate.
  destruct (on_timeout jnprog k) as [k'|] eqn:Ek; [|discriminate].
  assert (k' = JDeadline) as -> by (cbn in Ek; destruct k as [| |[]| | | | | | | | | | | | |]; try discriminate; injection Ek as <-; reflexivity).
  injection H1 as <-.
  assert (Hx : nth_error (thr c3) t = Some (Ready jcv l op' JDeadline)).
  { eapply stays; [|exact H2|exact Hno]. cbn [thr]. apply nth_error_upd_same. apply nth_error_Some. congruence. }
  destruct (late_run c3 t _ Hd Hx I _ _ H4) as (h' & Hh' & _ & [[op1 Hc]|[Hc _]]).
  - rewrite Hh in Hh'. apply app_inv_tail in Hh'. subst h'. exfalso. exact (Hnc _ Hc).
  - rewrite Hh in Hh'. apply app_inv_tail in Hh'. subst h'. apply Hc.
Qed.
