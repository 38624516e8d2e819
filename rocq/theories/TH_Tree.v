From Verif Require Import TH_Spec TH_Proofs.
Set Implicit Arguments.

(** ** Predicates on programs *)
Lemma every_new P k a b ct : every P (New k a b ct) <-> P (New k a b ct) /\ Forall (every P) b.
Proof.
  cbn. split; intros (H1 & H2); (split; [exact H1|]).
  - clear H1. induction b as [|c b IH]; [constructor|]. destruct H2 as (Hc & Hb). constructor; auto.
  - clear H1. induction H2 as [|c b Hc Hb IH]; auto.
Qed.
Lemma every_here P c : every P c -> P c.
Proof. destruct c; cbn; tauto. Qed.
Fixpoint every_impl (P Q : cmd -> Prop) (H : forall c, P c -> Q c) (c : cmd) {struct c} : every P c -> every Q c.
Proof.
  destruct c as [k a b ct| | | | | | | | | | |]; try (cbn; intros (H1 & _); split; auto; fail).
  rewrite !every_new. intros (H1 & H2). split; [auto|]. clear H1.
  induction b as [|c b IH]; [constructor|]. apply Forall_cons_iff in H2 as (Hc & Hb). constructor; [exact (every_impl P Q H c Hc)|auto].
Qed.
Definition pact (P : cmd -> Prop) (a : act) : Prop := match a with Do c => every P c | _ => True end.
Lemma pact_do P b : Forall (every P) b -> Forall (pact P) (map Do b).
Proof. induction 1; cbn; constructor; auto. Qed.
Lemma pact_pops P n : Forall (pact P) (repeat APop n).
Proof. induction n; cbn; constructor; cbn; auto. Qed.
Lemma lstep_pact P v3 n ended bx t x ch e : lstep v3 n ended bx t x ch = Some e -> Forall (pact P) (cont x) ->
  Forall (pact P) (cont (ex e)) /\ forall y, enew e = Some y -> Forall (pact P) (cont y).
Proof.
  intros H HF. pose proof HF as HF0. leaf H; (split; [|try discriminate]).
  all: try match goal with E : cont _ = _ |- _ => rewrite E in HF end; cbn [leave cont]; auto using pact_pops.
  all: try (apply Forall_cons_iff in HF as (Ha & Hr)); auto; repeat (apply Forall_cons; [exact I|]); auto.
  all: try (intros y Ey; injection Ey as <-; cbn [cont]; apply pact_do; apply every_new in Ha; tauto).
  all: try match goal with E : cont _ = _ |- Forall _ (cont _) => rewrite E; exact HF0 end.
  all: apply Forall_app; split; [apply pact_pops|]; auto; repeat constructor.
Qed.

(** ** Objects are handed over only to new threads *)
Definition below (r : nat -> nat) (s : cfg) : Prop := forall i x j, nth_error (ths s) i = Some x -> 0 < cnt j (loc x) -> r j < r i.
Definition within (s : cfg) : Prop := forall i x j a, nth_error (ths s) i = Some x -> 0 < cnt j (loc x) -> descendant (hist s) a j -> i = a \/ descendant (hist s) a i.
Record NX (s : cfg) : Prop := {
  x_act : forall t x, nth_error (ths s) t = Some x -> Forall (pact no_exchange) (cont x);
  x_box : forall j, cntb j (box s) = 0;
  x_rank : exists r, below r s;
  x_in : within s
}.
Lemma lstep_nobox v3 n ended bx t x ch e : lstep v3 n ended bx t x ch = Some e -> Forall (pact no_exchange) (cont x) -> ebox e = None.
Proof.
  intros H HF. leaf H; auto. try match goal with E : cont _ = _ |- _ => rewrite E in HF end.
  apply Forall_cons_iff in HF as (Ha & _). cbn in Ha. tauto.
Qed.
Lemma lstep_newcnt v3 n ended bx t x ch e y j : lstep v3 n ended bx t x ch = Some e -> enew e = Some y -> cnt j (loc y) <= cnt j (loc x).
Proof. intros H. leaf H; intros Ey; try discriminate. injection Ey as <-. cbn [loc]. match goal with E : take_all _ _ = _ |- _ => apply (take_all_cnt j) in E end. lia. Qed.

Lemma desc_same h h' a j : (forall u m, In (EStart u m) h' -> In (EStart u m) h) -> descendant h' a j -> descendant h a j.
Proof. intros H. induction 1 as [j Hj|i j Hi IH Hj]; [apply desc_child; auto|apply desc_more with i; auto]. Qed.
Lemma desc_app ev h a j : descendant h a j -> descendant (ev ++ h) a j.
Proof. apply desc_same. intros u m H. apply in_or_app. now right. Qed.
Lemma desc_old t n ev h a j : (forall u m, In (EStart u m) ev -> u = t /\ m = n) -> (forall m, ~ In (EStart n m) h) -> t <> n ->
  descendant (ev ++ h) a j -> (j <> n -> descendant h a j) /\ (j = n -> (forall u, ~ In (EStart u n) h) -> a = t \/ descendant h a t).
Proof.
  intros He Hn Htn. induction 1 as [j Hj|i j Hi IH Hj].
  - apply in_app_or in Hj. split.
    + intros Hjn. destruct Hj as [Hj|Hj]; [apply He in Hj as (_ & Hj); contradiction|now apply desc_child].
    + intros -> Hf. destruct Hj as [Hj|Hj]; [apply He in Hj as (-> & _); now left|exfalso; exact (Hf _ Hj)].
  - apply in_app_or in Hj. split.
    + intros Hjn. destruct Hj as [Hj|Hj]; [apply He in Hj as (_ & Hj); contradiction|].
      apply desc_more with i; [|exact Hj]. apply IH. intros ->. exact (Hn _ Hj).
    + intros -> Hf. destruct Hj as [Hj|Hj]; [|exfalso; exact (Hf _ Hj)]. apply He in Hj as (-> & _). right. apply IH. exact Htn.
Qed.

Lemma NX_step v3 s t ch s' : Inv s -> NX s -> step v3 s t ch = Some s' -> NX s'.
Proof.
  intros HI [HA HB (r & HR) HW] Hs. apply step_inv in Hs as (Hw & x & e & Hx & Hf & Hl & ->).
  assert (Ht : t < length (ths s)) by (apply nth_error_Some; congruence).
  pose proof (lstep_nobox _ _ _ _ _ _ _ Hl (HA _ _ Hx)) as Hbx. set (n := length (ths s)) in *.
  assert (Hcnt : forall j, cnt j (loc (ex e)) + cnew j (enew e) <= cnt j (loc x) + born n j (enew e)).
  { intros j. pose proof (@lstep_count _ _ _ _ _ _ _ _ j Hl) as HL. rewrite Hbx in HL. cbn [setbox] in HL. lia. }
  assert (Hlt : forall i y j, nth_error (ths s) i = Some y -> 0 < cnt j (loc y) -> j < n).
  { intros i y j Hy Hc. pose proof (i_cnt HI j) as HC. pose proof (@tot_upd j _ _ _ (MkT [] [] false false false false) Hy) as HT. cbn in HT.
    unfold n. destruct (Nat.ltb_spec j (length (ths s))) as [Hj|Hj]; [exact Hj|]. rewrite andb_false_r in HC. lia. }
  assert (Hev : forall u m, In (EStart u m) (ee e) -> u = t /\ m = n) by (intros u m Hu; apply (@lstep_start _ _ _ _ _ _ _ _ _ _ Hl) in Hu; tauto).
  assert (Hno : forall m, ~ In (EStart n m) (hist s)) by (intros m Hc; apply (i_act HI) in Hc; cbn in Hc; unfold n in Hc; lia).
  assert (Hfr : forall u, ~ In (EStart u n) (hist s)).
  { intros u Hc. assert (started (hist s) n) as Hst by (now exists u). apply (i_start HI) in Hst. unfold n in Hst. lia. }
  assert (Htn : t <> n) by lia.
  split.
  - intros u y Hy. apply apply_nth in Hy as (y0 & (_ & -> & _) & Hy). destruct Hy as [(-> & _ & ->)|[(Hn & Hy)|(-> & Hy)]].
    + exact (proj1 (lstep_pact _ _ _ _ _ _ _ Hl (HA _ _ Hx))).
    + exact (HA _ _ Hy).
    + exact (proj2 (lstep_pact _ _ _ _ _ _ _ Hl (HA _ _ Hx)) _ Hy).
  - intros j. cbn [apply box]. rewrite Hbx. cbn. apply HB.
  - destruct (enew e) as [y|] eqn:En.
    + exists (fun i => if i =? n then r t else if r t <=? r i then S (r i) else r i). intros u z j Hz Hc.
      apply apply_nth in Hz as (z0 & (E1 & _) & Hz). rewrite E1 in Hc.
      assert (Hold : forall i w, nth_error (ths s) i = Some w -> 0 < cnt j (loc w) ->
        (if j =? n then r t else if r t <=? r j then S (r j) else r j) < (if i =? n then r t else if r t <=? r i then S (r i) else r i)).
      { intros i w Hi Hcj. pose proof (Hlt _ _ _ Hi Hcj) as Hjn. pose proof (HR _ _ _ Hi Hcj) as Hrr. assert (Hin : i < n) by (apply nth_error_Some; congruence).
        destruct (Nat.eqb_spec j n); [lia|]. destruct (Nat.eqb_spec i n); [lia|].
        destruct (Nat.leb_spec (r t) (r j)), (Nat.leb_spec (r t) (r i)); lia. }
      destruct Hz as [(-> & _ & ->)|[(Hn & Hz)|(-> & Hz)]].
      * pose proof (Hcnt j) as Hj. unfold born in Hj. destruct (Nat.eqb_spec n j) as [<-|Hnj].
        -- rewrite Nat.eqb_refl. destruct (Nat.eqb_spec t n); [lia|]. rewrite Nat.leb_refl. lia.
        -- apply Hold with x; [exact Hx|lia].
      * exact (Hold _ _ Hz Hc).
      * rewrite En in Hz. injection Hz as <-. pose proof (@lstep_newcnt _ _ _ _ _ _ _ _ _ j Hl En) as Hle.
        assert (Hc' : 0 < cnt j (loc x)) by lia. pose proof (Hlt _ _ _ Hx Hc') as Hjn. pose proof (HR _ _ _ Hx Hc') as Hrr.
        unfold n. rewrite Nat.eqb_refl. fold n. destruct (Nat.eqb_spec j n); [lia|]. destruct (Nat.leb_spec (r t) (r j)); lia.
    + exists r. intros u z j Hz Hc. apply apply_nth in Hz as (z0 & (E1 & _) & Hz). rewrite E1 in Hc.
      destruct Hz as [(-> & _ & ->)|[(Hn & Hz)|(-> & Hz)]]; [|exact (HR _ _ _ Hz Hc)|congruence].
      apply HR with x; [exact Hx|]. specialize (Hcnt j). cbn in Hcnt. lia.
  - intros u z j a Hz Hc Hd. cbn [apply hist] in Hd |- *. apply apply_nth in Hz as (z0 & (E1 & _) & Hz). rewrite E1 in Hc.
    destruct (@desc_old t n (ee e) (hist s) a j Hev Hno Htn Hd) as (Hd1 & Hd2).
    assert (Hold : forall i w, nth_error (ths s) i = Some w -> 0 < cnt j (loc w) -> i = a \/ descendant (hist s) a i).
    { intros i w Hi Hcj. apply (HW _ _ _ _ Hi Hcj). apply Hd1. pose proof (Hlt _ _ _ Hi Hcj). lia. }
    destruct Hz as [(-> & _ & ->)|[(Hn & Hz)|(-> & Hz)]].
    + destruct (Nat.eq_dec j n) as [->|Hjn].
      * destruct (Hd2 eq_refl Hfr) as [->|Hd3]; [now left|right; now apply desc_app].
      * destruct (Hold t x) as [->|Hd3]; [exact Hx| |now left|right; now apply desc_app].
        specialize (Hcnt j). unfold born in Hcnt. destruct (enew e); [|lia]. destruct (Nat.eqb_spec n j); [congruence|lia].
    + destruct (Hold _ _ Hz Hc) as [->|Hd3]; [now left|right; now apply desc_app].
    + pose proof (@lstep_newcnt _ _ _ _ _ _ _ _ _ j Hl Hz) as Hle. pose proof (lstep_new _ _ _ _ _ _ _ Hl Hz) as (Hst & _).
      destruct (Hold t x) as [->|Hd3]; [exact Hx|lia| |].
      * right. apply desc_child. apply in_or_app. now left.
      * right. apply desc_more with t; [now apply desc_app|]. apply in_or_app. now left.
Qed.
Lemma NX_init main nb : Forall (every no_exchange) main -> NX (init main nb).
Proof.
  intros H. split; unfold init; cbn.
  - intros [|[|t]] x Hx; try discriminate. injection Hx as <-. apply pact_do. exact H.
  - intros j. induction nb; cbn; auto.
  - exists (fun i => i). intros [|[|t]] x j Hx; try discriminate. injection Hx as <-. cbn. lia.
  - intros [|[|t]] x j a Hx; try discriminate. injection Hx as <-. cbn. lia.
Qed.
Lemma NX_reach v3 main nb s : Forall (every no_exchange) main -> reach v3 main nb s -> NX s.
Proof. intros Hm. induction 1 as [|s t ch s' Hr IH Hs]; [now apply NX_init|exact (NX_step _ _ _ (Inv_reach Hr) IH Hs)]. Qed.

(** ** No deadlock *)
Lemma lstep_go v3 n ended bx t x : (exists e, lstep v3 n ended bx t x Go = Some e) \/ exists i j, hof (loc x) i = Some j /\ ended j = false /\ j <> t.
Proof.
  destruct (lstep v3 n ended bx t x Go) as [e|] eqn:H; [left; eauto|right].
  unfold lstep, go, die in H.
  repeat match type of H with
  | context [match ?X with _ => _ end] => match X with
      | take_all _ _ => let E := fresh "E" in destruct X as [? ?] eqn:E
      | _ => let E := fresh "E" in destruct X eqn:E
      end
  end; try discriminate H.
  match goal with E : hof _ ?i = Some ?j, E' : (?j =? _) = false |- _ => exists i, j; apply Nat.eqb_neq in E'; auto end.
Qed.
Lemma hof_cnt l i j : hof l i = Some j -> 0 < cnt j l.
Proof. intros H. pose proof (cnt_seth_none j l i) as E. rewrite H in E. cbn in E. rewrite Nat.eqb_refl in E. lia. Qed.
Lemma cnt_lt s i x j : Inv s -> nth_error (ths s) i = Some x -> 0 < cnt j (loc x) -> 1 <= j < length (ths s).
Proof.
  intros HI Hx Hc. pose proof (i_cnt HI j) as HC. pose proof (@tot_upd j _ _ _ (MkT [] [] false false false false) Hx) as HT. cbn in HT.
  destruct (Nat.leb_spec 1 j); destruct (Nat.ltb_spec j (length (ths s))); cbn in HC; lia.
Qed.
Lemma live_steps v3 s : Inv s -> NX s -> why s = None -> forall m t x, (exists r, below r s /\ r t <= m) -> nth_error (ths s) t = Some x -> fin x = false -> exists u s', step v3 s u Go = Some s'.
Proof.
  intros HI HN Hw. induction m as [|m IH]; intros t x (r & HR & Hm) Hx Hf.
  all: destruct (@lstep_go v3 (length (ths s)) (has_ended s) (box s) t x) as [(e & He)|(i & j & Hi & Hj & Hn)];
    [exists t; eexists; unfold step; rewrite Hw, Hx, Hf, He; reflexivity|].
  all: pose proof (hof_cnt _ _ Hi) as Hc; pose proof (HR _ _ _ Hx Hc) as Hlt; pose proof (cnt_lt _ _ HI Hx Hc) as Hjl; try lia.
  destruct (nth_error (ths s) j) as [y|] eqn:Ej; [|apply nth_error_None in Ej; lia]. unfold has_ended in Hj. rewrite Ej in Hj.
  apply (IH j y); auto. exists r. split; [exact HR|lia].
Qed.
Lemma nx_stuck v3 main nb s : Forall (every no_exchange) main -> reach v3 main nb s -> stuck v3 s -> why s = None -> forall t, t < length (ths s) -> In (EEnd t) (hist s).
Proof.
  intros Hm Hr Hst Hw t Ht. pose proof (Inv_reach Hr) as HI. pose proof (NX_reach Hm Hr) as HN.
  destruct (nth_error (ths s) t) as [x|] eqn:Ex; [|apply nth_error_None in Ex; lia]. apply (i_fin HI _ Ex).
  destruct (fin x) eqn:Ef; [reflexivity|]. destruct (x_rank HN) as (r & HR).
  destruct (@live_steps v3 s HI HN Hw (r t) t x) as (u & s' & Hs); auto; [exists r; auto|]. rewrite Hst in Hs. discriminate.
Qed.
