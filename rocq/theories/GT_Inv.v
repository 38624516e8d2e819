(** * Proofs about the 64-bit tick count *)
From Verif Require Import GT_Spec.
Set Implicit Arguments.

Lemma upd_same {A} (f : nat -> A) t x : upd f t x t = x.
Proof. unfold upd. now rewrite Nat.eqb_refl. Qed.
Lemma upd_other {A} (f : nat -> A) t u x : u <> t -> upd f t x u = f u.
Proof. intros H. unfold upd. destruct (Nat.eqb_spec u t); congruence. Qed.

Lemma new_state_exact k T0 T1 : 0 <= T1 - T0 < W -> new_state (T0 - k * W) (T1 mod W) = T1 - k * W.
Proof.
  intros H. unfold new_state. assert (HW : W = 4294967296) by reflexivity.
  replace ((T0 - k * W) mod W) with (T0 mod W) by (replace (T0 - k * W) with (T0 + (- k) * W) by lia; now rewrite Z.mod_add by lia).
  pose proof (Z.div_mod T0 W). pose proof (Z.div_mod T1 W). pose proof (Z.mod_pos_bound T0 W). pose proof (Z.mod_pos_bound T1 W).
  destruct (Z.ltb_spec (T1 mod W) (T0 mod W)); nia.
Qed.
Lemma base_mul start : exists k, base start = k * W.
Proof. exists (start / W). unfold base. pose proof (Z.div_mod start W). assert (W <> 0) by discriminate. lia. Qed.

(** ** Times in the history *)
Definition time_of (e : event) : Z := match e with EBegin n _ | ETicks n _ _ | EReturn n _ _ => n end.
Fixpoint ordered (n : Z) (h : list event) : Prop :=
  match h with [] => True | e :: h' => time_of e <= n /\ ordered (time_of e) h' end.
Lemma ordered_later n n' h : ordered n h -> n <= n' -> ordered n' h.
Proof. destruct h; cbn; [trivial|]. intros [A B] C. split; [lia|exact B]. Qed.
Lemma ordered_app n h1 e h2 : ordered n (h1 ++ e :: h2) -> time_of e <= n /\ (forall x, In x h1 -> time_of e <= time_of x).
Proof.
  revert n. induction h1 as [|x h1 IH]; cbn; intros n [A B]; [split; [exact A|tauto]|].
  destruct (IH _ B) as [C D]. split; [lia|]. intros y [<-|Hy]; [exact C|auto].
Qed.
Lemma ordered_tail n h1 h2 : ordered n (h1 ++ h2) -> exists m, ordered m h2.
Proof. revert n. induction h1 as [|x h1 IH]; cbn; intros n H; [eauto|]. destruct H as [_ H]. eauto. Qed.
Lemma reach_ordered start s : reach start s -> ordered (now s) (hist s).
Proof.
  induction 1 as [|s s' _ IH Hs]; [exact I|]. destruct Hs; cbn; try (split; [lia|exact IH]).
  apply ordered_later with (now s); [exact IH|lia].
Qed.
Lemma begun_in t h b : begun t h = Some b -> In (EBegin b t) h.
Proof.
  induction h as [|[b' u|n u st|e u v] h IH]; cbn; try discriminate; auto.
  destruct (Nat.eqb_spec u t) as [->|]; [injection 1 as <-; auto|auto].
Qed.

(** ** Exact values *)
Definition PcInv (B : Z) (s : sys) (t : nat) : Prop :=
  match pcs s t with
  | Idle => True
  | Loaded old => old = at_ s t - B /\ at_ s t <= now s /\ exists b, begun t (hist s) = Some b /\ b <= now s
  | Read v => v = at_ s t - B /\ at_ s t <= now s /\ exists b, begun t (hist s) = Some b /\ b <= at_ s t
  end.
Record Inv (B : Z) (s : sys) : Prop := MkInv {
  i_ticks : ticks s = ticks_at s - B;
  i_at : ticks_at s <= now s;
  i_pc : forall t, PcInv B s t;
  i_exact : exact B (hist s) }.

Lemma timely_tail e h : timely (e :: h) -> timely h.
Proof. intros H n t st Hin. apply (H n t st). now right. Qed.
Lemma reach_inv start s : reach start s -> timely (hist s) -> Inv (base start) s.
Proof.
  destruct (base_mul start) as [k Hk]. induction 1 as [|s s' Hr IH Hs]; intros Ht.
  - split; cbn; [unfold base; lia|assert (0 <= start mod W) by (apply Z.mod_pos_bound; reflexivity); lia|intros t; exact I|exact I].
  - inversion Hs; subst; cbn in *.
    + destruct (IH Ht) as [A B C D]. split; cbn; auto; [lia|]. intros t. specialize (C t). unfold PcInv in *. cbn.
      destruct (pcs s t); auto; destruct C as (C1 & C2 & b & C3 & C4); repeat split; try lia; exists b; split; auto; lia.
    + destruct (IH (timely_tail Ht)) as [A B C D]. split; cbn; auto. intros u. unfold PcInv. cbn.
      destruct (Nat.eq_dec u t) as [->|Hu].
      * rewrite !upd_same. repeat split; auto. rewrite Nat.eqb_refl. eexists. split; [reflexivity|lia].
      * rewrite !upd_other by auto. specialize (C u). unfold PcInv in C. assert (E : Nat.eqb t u = false) by (apply Nat.eqb_neq; congruence). rewrite E. exact C.
    + destruct (IH (timely_tail Ht)) as [A B C D]. split; cbn; auto. intros u. unfold PcInv. cbn.
      destruct (Nat.eq_dec u t) as [->|Hu].
      * rewrite !upd_same. specialize (C t). unfold PcInv in C. rewrite H in C. destruct C as (C1 & C2 & b & C3 & C4).
        assert (Hw : now s - at_ s t < W) by (apply (Ht (now s) t (at_ s t)); now left).
        split; [|split; [lia|exists b; auto]]. rewrite C1, Hk. apply new_state_exact. lia.
      * rewrite !upd_other by auto. exact (C u).
    + destruct (IH (timely_tail Ht)) as [A B C D]. pose proof (C t) as Ct. unfold PcInv in Ct. rewrite H in Ct. destruct Ct as (C1 & C2 & b & C3 & C4).
      split; cbn; auto.
      * intros u. unfold PcInv. cbn. destruct (Nat.eq_dec u t) as [->|Hu]; [now rewrite upd_same|]. rewrite upd_other by auto. exact (C u).
      * split; [|exact D]. exists b. split; [exact C3|]. lia.
Qed.

Lemma exact_tail B h1 h2 : exact B (h1 ++ h2) -> exact B h2.
Proof. induction h1 as [|[b u|n u st|e u v] h1 IH]; cbn; auto. intros [_ H]. auto. Qed.
Lemma begun_app t h1 h2 b : begun t h1 = Some b -> begun t (h1 ++ h2) = Some b.
Proof. induction h1 as [|[b' u|n u st|e u v] h1 IH]; cbn; try discriminate; auto. destruct (Nat.eqb u t); auto. Qed.
Lemma exact_never_back B n h : ordered n h -> exact B h -> never_back h.
Proof.
  intros Ho He h1 h2 h3 e1 t1 v1 e2 t2 v2 b2 -> Hb. apply exact_tail in He. cbn in He. destruct He as ((b & Hb' & Hv) & He).
  rewrite (begun_app _ _ _ Hb) in Hb'. injection Hb' as <-. apply exact_tail in He. cbn in He. destruct He as ((b & _ & Hv') & _).
  destruct (ordered_tail _ _ _ Ho) as [m Hm]. cbn in Hm. destruct Hm as [_ Hm].
  destruct (ordered_app _ _ _ _ Hm) as [_ Hin]. specialize (Hin _ (begun_in _ _ Hb)). cbn in Hin. lia.
Qed.

(** ** Bounds *)
Definition PcB (D1 D2 B : Z) (s : sys) (t : nat) : Prop :=
  match pcs s t with
  | Idle => True
  | Loaded _ => exists b, begun t (hist s) = Some b /\ b <= now s /\
      match returned_before t (hist s) with Some _ => b - at_ s t <= D1 + D2 | None => at_ s t = B end
  | Read _ => exists b, begun t (hist s) = Some b /\ b <= at_ s t /\ at_ s t <= now s
  end.
Lemma prompt_tail D1 D2 w e h : prompt D1 D2 w (e :: h) -> prompt D1 D2 w h.
Proof. destruct e; cbn; tauto. Qed.
Lemma reach_prompt D1 D2 start s : 0 <= D1 -> 0 <= D2 -> 2 * D1 + D2 < W -> reach start s -> prompt D1 D2 (wrap start) (hist s) ->
  timely (hist s) /\ (forall t, PcB D1 D2 (base start) s t) /\
  match last_return (hist s) with Some e => e - ticks_at s <= D1 | None => ticks_at s = base start end.
Proof.
  intros H1 H2 HD. induction 1 as [|s s' Hr IH Hs]; intros Hp.
  - cbn. split; [intros ? ? ? []|]. split; [intros t; exact I|reflexivity].
  - inversion Hs; subst; cbn in Hp.
    + destruct (IH Hp) as (A & B & C). split; [exact A|]. split; [|exact C]. intros t. specialize (B t). unfold PcB in *. cbn.
      destruct (pcs s t); auto; destruct B as (b & B1 & B2 & B3); exists b; repeat split; auto; lia.
    + destruct Hp as [Hb Hp]. destruct (IH Hp) as (A & B & C). split; [|split; [|exact C]].
      * intros n u st [E|Hin]; [discriminate|exact (A _ _ _ Hin)].
      * intros u. unfold PcB. cbn. destruct (Nat.eq_dec u t) as [->|Hu].
        -- rewrite !upd_same, Nat.eqb_refl. exists (now s). repeat split; [lia|]. destruct (last_return (hist s)) as [e|]; [|exact C].
           specialize (Hb _ eq_refl). lia.
        -- rewrite !upd_other by auto. assert (E : Nat.eqb t u = false) by (apply Nat.eqb_neq; congruence). rewrite E. exact (B u).
    + destruct Hp as [Hb [Hw Hp]]. destruct (IH Hp) as (A & B & C). pose proof (B t) as Bt. unfold PcB in Bt. rewrite H in Bt.
      destruct Bt as (b & B1 & B2 & B3). specialize (Hb _ B1). split; [|split; [|exact C]].
      * intros n u st [E|Hin]; [|exact (A _ _ _ Hin)]. injection E as <- <- <-.
        destruct (returned_before t (hist s)); [lia|]. rewrite B3. specialize (Hw eq_refl). unfold wrap in Hw. lia.
      * intros u. unfold PcB. cbn. destruct (Nat.eq_dec u t) as [->|Hu].
        -- rewrite !upd_same. exists b. repeat split; auto. lia.
        -- rewrite !upd_other by auto. exact (B u).
    + destruct Hp as [Hb Hp]. destruct (IH Hp) as (A & B & C). pose proof (B t) as Bt. unfold PcB in Bt. rewrite H in Bt.
      destruct Bt as (b & B1 & B2 & B3). specialize (Hb _ B1). split; [|split].
      * intros n u st [E|Hin]; [discriminate|exact (A _ _ _ Hin)].
      * intros u. unfold PcB. cbn. destruct (Nat.eq_dec u t) as [->|Hu]; [now rewrite upd_same|]. rewrite upd_other by auto. exact (B u).
      * cbn. lia.
Qed.
