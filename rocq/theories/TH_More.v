From Verif Require Import TH_Spec TH_Proofs TH_Tree.
Set Implicit Arguments.

(** ** Programs that do not detach *)
Definition nd_kind (pl : bool) (k : kind) : Prop := match k with KScoped f => joins f | KPlain => pl = true end.
Definition nd (pl : bool) (c : cmd) : Prop :=
  match c with
  | New k _ _ _ | MoveNew k _ => nd_kind pl k
  | Guard f _ => joins f
  | Detach _ => False
  | _ => True
  end.
Definition nd_obj (pl : bool) (o : obj) : Prop := match o with OThr k _ => nd_kind pl k | OGuard f _ => joins f | ODis _ => True end.
Definition nd_act (pl : bool) (a : act) : Prop :=
  match a with
  | Do c => every (nd pl) c
  | AFun f _ _ => joins f
  | AFinish f _ _ => joins f
  | AAssign (Some f) _ _ _ => joins f
  | AAssign None _ _ _ => pl = true
  | _ => True
  end.
Definition NDt (pl : bool) (x : thr) : Prop := Forall (nd_obj pl) (loc x) /\ Forall (nd_act pl) (cont x).

Lemma nd_do pl b : Forall (every (nd pl)) b -> Forall (nd_act pl) (map Do b).
Proof. induction 1; cbn; constructor; auto. Qed.
Lemma nd_pops pl n : Forall (nd_act pl) (repeat APop n).
Proof. induction n; cbn; constructor; cbn; auto. Qed.
Lemma nd_seth pl l i h : Forall (nd_obj pl) l -> Forall (nd_obj pl) (seth l i h).
Proof. intros H. unfold seth. destruct (nth_error l i) as [[k h'|f g|w]|] eqn:E; auto. apply Forall_upd; auto. exact (Forall_nth _ H E). Qed.
Lemma nd_removelast pl l : Forall (nd_obj pl) l -> Forall (nd_obj pl) (removelast l).
Proof.
  intros H. destruct l as [|o l]; [constructor|]. pose proof (@app_removelast_last _ (o :: l) (ODis true)) as E.
  rewrite E in H by discriminate. apply Forall_app in H. tauto.
Qed.
Lemma nd_take pl args : forall l l' os, take_all l args = (l', os) -> Forall (nd_obj pl) l -> Forall (nd_obj pl) l' /\ Forall (nd_obj pl) os.
Proof.
  induction args as [|i args IH]; intros l l' os; cbn.
  - intros H; injection H as <- <-; auto.
  - destruct (nth_error l i) as [[k h|f g|w]|] eqn:E; try apply IH. destruct (take_all (upd l i (OThr k None)) args) as [l1 os1] eqn:E1.
    intros H HF; injection H as <- <-. pose proof (Forall_nth _ HF E) as Hk. cbn in Hk.
    destruct (IH _ _ _ E1) as (H1 & H2); [apply Forall_upd; auto|]. split; [exact H1|constructor; auto].
Qed.

Lemma lstep_nd pl v3 n ended bx t x ch e h : lstep v3 n ended bx t x ch = Some e -> shape h x -> NDt pl x ->
  NDt pl (ex e) /\ (forall y, enew e = Some y -> NDt pl y) /\
  ((pl = false \/ v3 = true) -> forall j, ~ In (EDetached t j) (ee e)) /\ (pl = false -> ewhy e <> Some RJoinable).
Proof.
  intros H HS (HL & HC). unfold NDt. pose proof HC as HC0. leaf H; useshape HS x.
  all: try match goal with E : cont _ = _ |- _ => rewrite E in HC; rewrite ?E end.
  all: try (apply Forall_cons_iff in HC as (Ha & Hr)).
  all: try match goal with E : take_all _ _ = _ |- _ => destruct (@nd_take pl _ _ _ _ E HL) as (HL1 & HL2) end.
  all: (split; [split|split; [try discriminate|split]]); cbn [leave loc cont]; auto using nd_pops, nd_seth, nd_removelast.
  all: try (intros _; discriminate).
  all: try (intros _ jj HI; cbn in HI; repeat (destruct HI as [HI|HI]; [discriminate|]); exact HI).
  all: repeat match goal with E : nth_error (loc _) _ = Some _ |- _ => let F := fresh "F" in pose proof (Forall_nth _ HL E) as F; cbn in F; revert E end; intros.
  all: try (apply every_new in Ha as (Hk & Hb)); cbn [nd_act every nd] in *.
  all: try (intros y Ey; injection Ey as <-; cbn [loc cont]; split; auto using nd_do; fail).
  all: try (apply Forall_app; split); auto using nd_pops.
  all: try (repeat (apply Forall_cons; cbn [nd_obj nd_act]); auto; tauto).
  all: try (apply Forall_upd; auto; fail).
  all: try (unfold assign; cbn zeta; apply Forall_upd; [apply nd_seth; apply Forall_upd; auto|auto]; fail).
  all: try (intros [ -> | -> ] jj HI; cbn in HI; repeat (destruct HI as [HI|HI]; try discriminate); try contradiction; try tauto; fail).
  all: try tauto.
  all: try match goal with E : cont _ = _ |- Forall _ (cont _) => rewrite E; exact HC0 end.
  all: try (intros; congruence).
  all: try match goal with H : Some _ = Some ?y |- _ => injection H as <-; cbn [loc cont]; split; auto using nd_do end.
  all: exfalso.
  all: try match goal with HS : match ?f with Some _ => _ | None => _ end |- _ => destruct f end.
  all: unfold lastok in *; repeat match goal with H : _ /\ _ |- _ => destruct H end.
  all: try match goal with H : _ \/ _ = true |- _ => destruct H; congruence end; try congruence.
  all: try match goal with E : nth_error _ ?i = Some (OThr _ (Some _)), E' : hof _ ?i = None |- _ => rewrite (hof_nth _ _ E) in E'; discriminate end.
Qed.
Definition ND (pl : bool) (s : cfg) : Prop := forall t x, nth_error (ths s) t = Some x -> NDt pl x.
Lemma ND_step pl v3 s t ch s' : Inv s -> ND pl s -> step v3 s t ch = Some s' ->
  ND pl s' /\ ((pl = false \/ v3 = true) -> (forall u j, ~ In (EDetached u j) (hist s)) -> forall u j, ~ In (EDetached u j) (hist s')) /\ (pl = false -> why s' <> Some RJoinable).
Proof.
  intros HI HN Hs. apply step_inv in Hs as (Hw & x & e & Hx & Hf & Hl & ->).
  destruct (lstep_nd _ _ _ _ _ _ _ Hl (i_shape HI _ Hx) (HN _ _ Hx)) as (H1 & H2 & H3 & H4). split; [|split; [|exact H4]].
  - intros u y Hy. apply apply_nth in Hy as (y0 & (E1 & E2 & _) & Hy). unfold NDt. rewrite E1, E2. fold (NDt pl y0).
    destruct Hy as [(-> & _ & ->)|[(Hn & Hy)|(-> & Hy)]]; auto. exact (HN _ _ Hy).
  - intros Hp Hh u j Hc. cbn [apply hist] in Hc. apply in_app_or in Hc as [Hc|Hc]; [|exact (Hh _ _ Hc)].
    assert (u = t) as -> by (apply (lstep_actor _ _ _ _ _ _ _ Hl) in Hc; exact Hc). exact (H3 Hp _ Hc).
Qed.
Lemma ND_init pl main nb : Forall (every (nd pl)) main -> ND pl (init main nb).
Proof. intros H [|[|t]] x Hx; try discriminate. injection Hx as <-. split; cbn; auto using nd_do. Qed.
Lemma ND_reach pl v3 main nb s : Forall (every (nd pl)) main -> reach v3 main nb s -> ND pl s.
Proof. intros Hm. induction 1 as [|s t ch s' Hr IH Hs]; [now apply ND_init|exact (proj1 (ND_step _ _ _ (Inv_reach Hr) IH Hs))]. Qed.
Lemma no_detach pl v3 main nb s : Forall (every (nd pl)) main -> (pl = false \/ v3 = true) -> reach v3 main nb s -> forall u j, ~ In (EDetached u j) (hist s).
Proof.
  intros Hm Hp. induction 1 as [|s t ch s' Hr IH Hs]; [intros u j []|].
  exact (proj1 (proj2 (ND_step _ _ _ (Inv_reach Hr) (@ND_reach _ _ _ _ _ Hm Hr) Hs)) Hp IH).
Qed.

(** ** Structured programs *)
Lemma structured_nx c : every structured c -> every no_exchange c.
Proof. apply every_impl. intros []; cbn; tauto. Qed.
Lemma structured_nd c : every structured c -> every (nd false) c.
Proof. apply every_impl. intros []; cbn; auto; try tauto; destruct k; cbn; tauto. Qed.
Lemma rel_in h j : 0 < rel j h -> exists u, In (EJoined u j) h \/ In (EDetached u j) h.
Proof.
  induction h as [|e h IH]; cbn; [lia|]. intros H. destruct (Nat.eq_dec (rel1 j e) 0) as [E|E].
  - rewrite E in H. destruct (IH H) as (u & [Hu|Hu]); exists u; auto.
  - destruct e; cbn in E; try contradiction; destruct (Nat.eqb_spec j0 j) as [->|]; try contradiction; exists t; auto.
Qed.
Lemma rel_pos h j u : In (EJoined u j) h \/ In (EDetached u j) h -> 0 < rel j h.
Proof.
  induction h as [|e h IH]; cbn; [tauto|]. intros H.
  destruct H as [[ -> |H]|[ -> |H]]; cbn [rel1]; rewrite ?Nat.eqb_refl; try lia; assert (0 < rel j h) by (apply IH; auto); lia.
Qed.
Lemma hgood_joined h u j : hgood h -> In (EJoined u j) h -> In (EEnd j) h.
Proof.
  intros HG Hi. apply in_split in Hi as (h2 & h1 & ->). apply hgood_split in HG as (_ & HG). apply in_or_app. right. right. exact HG.
Qed.
Lemma tot_in j l : 0 < tot j l -> exists i x, nth_error l i = Some x /\ 0 < cnt j (loc x).
Proof.
  induction l as [|x l IH]; cbn; [lia|]. intros H. destruct (Nat.eq_dec (cnt j (loc x)) 0) as [E|E].
  - destruct (IH ltac:(lia)) as (i & y & Hi & Hy). exists (S i), y. auto.
  - exists 0, x. split; [reflexivity|lia].
Qed.
Lemma fin_unw v3 main nb s : reach v3 main nb s -> forall t x, nth_error (ths s) t = Some x -> fin x = true -> unw x = true /\ cont x = [].
Proof.
  induction 1 as [|s t ch s' Hr IH Hs]; intros u y Hy.
  - destruct u as [|[|u]]; try discriminate. injection Hy as <-. discriminate.
  - apply step_inv in Hs as (Hw & x & e & Hx & Hf & Hl & ->). apply apply_nth in Hy as (y0 & (_ & -> & -> & _ & ->) & Hy).
    destruct Hy as [(-> & _ & ->)|[(Hn & Hy)|(-> & Hy)]].
    + clear - Hl Hf. intros Hg. revert Hg. leaf Hl; intros Hg; cbn [fin leave unw cont] in *; auto; congruence.
    + exact (IH _ _ Hy).
    + apply (lstep_new _ _ _ _ _ _ _ Hl) in Hy as (_ & _ & _ & _ & Hy & _). rewrite Hy. discriminate.
Qed.
Lemma fin_empty v3 main nb s t x : reach v3 main nb s -> nth_error (ths s) t = Some x -> fin x = true -> loc x = [].
Proof.
  intros Hr Hx Hf. destruct (fin_unw Hr _ Hx Hf) as (Hu & Hc). destruct (i_unw (Inv_reach Hr) _ Hx Hu) as (_ & HP). rewrite Hc in HP. cbn in HP.
  destruct (loc x); [reflexivity|discriminate].
Qed.
Lemma holder v3 main nb s j : Forall (every structured) main -> reach v3 main nb s -> 1 <= j < length (ths s) -> ~ In (EEnd j) (hist s) ->
  exists i x, nth_error (ths s) i = Some x /\ 0 < cnt j (loc x) /\ fin x = false.
Proof.
  intros Hm Hr Hj He. pose proof (Inv_reach Hr) as HI.
  assert (Hnx : Forall (every no_exchange) main) by (eapply Forall_impl; [exact structured_nx|exact Hm]).
  assert (Hnd : Forall (every (nd false)) main) by (eapply Forall_impl; [exact structured_nd|exact Hm]).
  pose proof (i_cnt HI j) as HC. rewrite (x_box (NX_reach Hnx Hr)) in HC.
  assert (Hrel : rel j (hist s) = 0).
  { destruct (rel j (hist s)) eqn:E; [reflexivity|]. exfalso. destruct (@rel_in (hist s) j ltac:(lia)) as (u & [Hu|Hu]).
    - exact (He (hgood_joined _ _ _ (i_hist HI) Hu)).
    - exact (@no_detach _ _ _ _ _ Hnd (or_introl eq_refl) Hr _ _ Hu). }
  rewrite Hrel in HC. replace ((1 <=? j) && (j <? length (ths s))) with true in HC by (symmetry; apply andb_true_intro; split; [apply Nat.leb_le|apply Nat.ltb_lt]; lia).
  destruct (@tot_in j (ths s) ltac:(lia)) as (i & x & Hi & Hx). exists i, x. repeat split; auto.
  destruct (fin x) eqn:Ef; [|reflexivity]. rewrite (fin_empty _ Hr Hi Ef) in Hx. cbn in Hx. lia.
Qed.
Lemma desc_started s a j : Inv s -> descendant (hist s) a j -> 1 <= j < length (ths s).
Proof. intros HI Hd. apply (i_start HI). destruct Hd as [j Hj|i j _ Hj]; [now exists a|now exists i]. Qed.
Lemma structured_end v3 main nb s t : Forall (every structured) main -> reach v3 main nb s -> In (EEnd t) (hist s) ->
  forall j, descendant (hist s) t j -> In (EEnd j) (hist s).
Proof.
  intros Hm Hr Ht. pose proof (Inv_reach Hr) as HI.
  assert (Hnx : Forall (every no_exchange) main) by (eapply Forall_impl; [exact structured_nx|exact Hm]).
  pose proof (NX_reach Hnx Hr) as HN. destruct (x_rank HN) as (r & HR).
  assert (Hmax : exists M, forall i, i < length (ths s) -> r i <= M).
  { clear. induction (length (ths s)) as [|n (M & IH)]; [exists 0; lia|]. exists (M + r n). intros i Hi.
    destruct (Nat.eq_dec i n) as [->|Hn]; [lia|]. specialize (IH i ltac:(lia)). lia. }
  destruct Hmax as (M & HM).
  assert (H : forall d j, M - r j <= d -> descendant (hist s) t j -> In (EEnd j) (hist s)).
  { induction d as [|d IH]; intros j Hd Hj; pose proof (desc_started HI Hj) as Hjl.
    all: destruct (nth_error (ths s) j) as [y|] eqn:Ej; [|apply nth_error_None in Ej; lia]; destruct (fin y) eqn:Ef; [now apply (i_fin HI _ Ej)|exfalso].
    all: assert (He : ~ In (EEnd j) (hist s)) by (intros Hc; apply (i_fin HI _ Ej) in Hc; congruence).
    all: destruct (holder Hm Hr Hjl He) as (i & x & Hi & Hc & Hfx); pose proof (HR _ _ _ Hi Hc) as Hlt.
    all: assert (Hil : i < length (ths s)) by (apply nth_error_Some; congruence); pose proof (HM _ Hil) as HMi; try lia.
    pose proof (x_in HN) as HW; destruct (HW _ _ _ _ Hi Hc Hj) as [->|Hdi].
    - apply (i_fin HI _ Hi) in Ht. congruence.
    - assert (In (EEnd i) (hist s)) as Hei by (apply IH; [lia|exact Hdi]). apply (i_fin HI _ Hi) in Hei. congruence. }
  intros j Hj. exact (H _ _ (Nat.le_refl _) Hj).
Qed.
Lemma all_descend v3 main nb s j : reach v3 main nb s -> 1 <= j < length (ths s) -> descendant (hist s) 0 j.
Proof.
  intros Hr Hj. pose proof (Inv_reach Hr) as HI. revert j Hj. induction Hr as [|s t ch s' Hr IH Hs]; intros j Hj.
  - cbn in Hj. lia.
  - specialize (IH (Inv_reach Hr)). pose proof (Inv_reach Hr) as HI0. apply step_inv in Hs as (Hw & x & e & Hx & Hf & Hl & ->). rewrite apply_length in Hj. cbn [apply hist].
    destruct (Nat.eq_dec j (length (ths s))) as [->|Hn].
    + destruct (enew e) as [y|] eqn:En; [|lia]. pose proof (lstep_new _ _ _ _ _ _ _ Hl En) as (Hst & _).
      destruct (Nat.eq_dec t 0) as [->|Ht]; [apply desc_child; apply in_or_app; now left|].
      apply desc_more with t; [|apply in_or_app; now left]. apply desc_app. apply IH. split; [lia|]. apply nth_error_Some. congruence.
    + apply desc_app. apply IH. destruct (enew e); lia.
Qed.

(** ** Termination of the program by the library *)
Lemma lstep_intr v3 n ended bx t x ch e h : lstep v3 n ended bx t x ch = Some e -> shape h x -> ewhy e <> Some RIntr.
Proof.
  intros H HS. leaf H; try discriminate; useshape HS x; open_shape.
  all: repeat match goal with E : _ && _ = true |- _ => apply andb_prop in E; destruct E end; congruence.
Qed.
Lemma lstep_joinable v3 n ended bx t x ch e : lstep v3 n ended bx t x ch = Some e -> ewhy e = Some RJoinable -> v3 = true.
Proof. intros H. leaf H; try discriminate; auto. Qed.
Lemma lstep_self v3 n ended bx t x ch e : lstep v3 n ended bx t x ch = Some e -> cnt t (loc x) = 0 -> ewhy e <> Some RSelf /\ ~ In (EDeadlock t) (ee e).
Proof.
  intros H Hc. leaf H; (split; [try discriminate|]); try (intros HI; cbn in HI; repeat (destruct HI as [HI|HI]; [discriminate|]); exact HI).
  all: exfalso; match goal with E1 : hof _ _ = Some _, E2 : (_ =? _) = true |- _ => apply Nat.eqb_eq in E2; subst; apply hof_cnt in E1; lia end.
Qed.
Lemma lstep_uncaught v3 n ended bx t x ch e : lstep v3 n ended bx t x ch = Some e -> ewhy e = Some RUncaught -> (exists r, cont x = AThrow :: r) \/ In (EDeadlock t) (ee e).
Proof.
  intros H. leaf H; try discriminate; intros _; first [right; left; reflexivity|left; eexists; try eassumption; reflexivity].
Qed.
Definition hf (a : act) : Prop := a <> AThrow /\ pact handles_failure a.
Lemma hf_pops n : Forall hf (repeat APop n).
Proof. induction n; cbn; constructor; auto. split; [discriminate|exact I]. Qed.
Lemma hf_do b : Forall (every handles_failure) b -> Forall hf (map Do b).
Proof. induction 1; cbn; constructor; auto. split; [discriminate|auto]. Qed.
Lemma lstep_hf v3 n ended bx t x ch e : lstep v3 n ended bx t x ch = Some e -> Forall hf (cont x) ->
  Forall hf (cont (ex e)) /\ forall y, enew e = Some y -> Forall hf (cont y).
Proof.
  intros H HF. pose proof HF as HF0. leaf H; (split; [|try discriminate]).
  all: try match goal with E : cont _ = _ |- _ => rewrite E in HF end; cbn [leave cont]; auto using hf_pops.
  all: try (apply Forall_cons_iff in HF as ((_ & Ha) & Hr)); auto.
  all: try match goal with E : cont _ = _ |- Forall _ (cont _) => rewrite E; exact HF0 end.
  all: try (repeat (apply Forall_cons; [split; [discriminate|exact I]|]); auto; fail).
  all: try (intros y Ey; injection Ey as <-; cbn [cont]; apply hf_do; apply every_new in Ha; tauto).
  all: apply Forall_app; split; [apply hf_pops|]; auto.
  apply every_new in Ha as (Ha & _). discriminate.
Qed.
Lemma hf_reach v3 main nb s : Forall (every handles_failure) main -> reach v3 main nb s -> forall t x, nth_error (ths s) t = Some x -> Forall hf (cont x).
Proof.
  intros Hm. induction 1 as [|s t ch s' Hr IH Hs]; intros u y Hy.
  - destruct u as [|[|u]]; try discriminate. injection Hy as <-. apply hf_do. exact Hm.
  - apply step_inv in Hs as (Hw & x & e & Hx & Hf & Hl & ->). apply apply_nth in Hy as (y0 & (_ & -> & _) & Hy).
    destruct (lstep_hf _ _ _ _ _ _ _ Hl (IH _ _ Hx)) as (H1 & H2).
    destruct Hy as [(-> & _ & ->)|[(Hn & Hy)|(-> & Hy)]]; auto. exact (IH _ _ Hy).
Qed.
Lemma nx_self v3 main nb s : Forall (every no_exchange) main -> reach v3 main nb s -> why s <> Some RSelf /\ forall u, ~ In (EDeadlock u) (hist s).
Proof.
  intros Hm. induction 1 as [|s t ch s' Hr IH Hs]; [split; [discriminate|intros u []]|].
  pose proof (NX_reach Hm Hr) as HN. apply step_inv in Hs as (Hw & x & e & Hx & Hf & Hl & ->).
  assert (Hc : cnt t (loc x) = 0).
  { destruct (x_rank HN) as (r & HR). destruct (cnt t (loc x)) eqn:E; [reflexivity|]. pose proof (HR t x t Hx ltac:(lia)). lia. }
  destruct (lstep_self _ _ _ _ _ _ _ Hl Hc) as (H1 & H2). split; [exact H1|]. intros u Hu. cbn [apply hist] in Hu.
  apply in_app_or in Hu as [Hu|Hu]; [|exact (proj2 IH _ Hu)]. assert (u = t) as -> by (apply (lstep_actor _ _ _ _ _ _ _ Hl) in Hu; exact Hu). exact (H2 Hu).
Qed.
Lemma why_reach v3 main nb s : reach v3 main nb s -> why s <> Some RIntr /\ (why s = Some RJoinable -> v3 = true).
Proof.
  induction 1 as [|s t ch s' Hr IH Hs]; [split; discriminate|]. pose proof (Inv_reach Hr) as HI. apply step_inv in Hs as (Hw & x & e & Hx & Hf & Hl & ->).
  split; [exact (@lstep_intr _ _ _ _ _ _ _ _ _ Hl (i_shape HI _ Hx))|exact (lstep_joinable _ _ _ _ _ _ _ Hl)].
Qed.
Lemma structured_why v3 main nb s : Forall (every structured) main -> Forall (every handles_failure) main -> reach v3 main nb s -> why s = None.
Proof.
  intros Hm Hh Hr.
  assert (Hnx : Forall (every no_exchange) main) by (eapply Forall_impl; [exact structured_nx|exact Hm]).
  assert (Hnd : Forall (every (nd false)) main) by (eapply Forall_impl; [exact structured_nd|exact Hm]).
  destruct Hr as [|s t ch s' Hr Hs]; [reflexivity|]. assert (Hr' : reach v3 main nb s') by (econstructor; eauto).  
  pose proof (why_reach Hr') as (W1 & _). pose proof (nx_self Hnx Hr') as (W2 & W3).
  pose proof (proj2 (proj2 (ND_step _ _ _ (Inv_reach Hr) (@ND_reach _ _ _ _ _ Hnd Hr) Hs)) eq_refl) as W4.
  apply step_inv in Hs as (Hw & x & e & Hx & Hf & Hl & ->). cbn [apply why] in *. destruct (ewhy e) as [[]|] eqn:Ee; try congruence.
  exfalso. destruct (lstep_uncaught _ _ _ _ _ _ _ Hl Ee) as [(r & Er)|Hd].
  - pose proof (hf_reach Hh Hr _ Hx) as HF. rewrite Er in HF. apply Forall_cons_iff in HF as ((HF & _) & _). congruence.
  - apply (W3 t). cbn [apply hist]. apply in_or_app. now left.
Qed.

(** ** All runs are finite *)
Fixpoint csize (c : cmd) : nat :=
  match c with
  | New _ args b _ => 20 + 11 * length args + (fix ls (l : list cmd) : nat := match l with [] => 0 | x :: r => csize x + ls r end) b
  | _ => 10
  end.
Fixpoint lsize (l : list cmd) : nat := match l with [] => 0 | x :: r => csize x + lsize r end.
Lemma csize_new k args b ct : csize (New k args b ct) = 20 + 11 * length args + lsize b.
Proof. reflexivity. Qed.
Definition asize (a : act) : nat :=
  match a with Do c => csize c | APop => 5 | AFun _ _ _ => 3 | AJoin _ w _ _ _ => if w then 1 else 2 | AFinish _ _ _ => 1 | AAssign _ _ _ _ => 1 | AThrow => 1 end.
Fixpoint rsize (r : list act) : nat := match r with [] => 0 | a :: r' => asize a + rsize r' end.
Definition tsize (x : thr) : nat := rsize (cont x) + (if unw x then 0 else 1 + 6 * length (loc x)) + (if fin x then 0 else 1).
Fixpoint size (l : list thr) : nat := match l with [] => 0 | x :: r => tsize x + size r end.
Lemma rsize_app r r' : rsize (r ++ r') = rsize r + rsize r'.
Proof. induction r; cbn; lia. Qed.
Lemma rsize_pops n : rsize (repeat APop n) = 5 * n.
Proof. induction n as [|n IH]; cbn [repeat rsize asize]; lia. Qed.
Lemma rsize_do b : rsize (map Do b) = lsize b.
Proof. induction b as [|c b IH]; cbn [map rsize lsize asize]; lia. Qed.
Lemma size_upd l i x y : nth_error l i = Some y -> size (upd l i x) + tsize y = size l + tsize x.
Proof. revert i. induction l as [|z l IH]; intros [|i]; cbn [nth_error upd size]; try discriminate; intros H; [injection H as ->; lia|specialize (IH _ H); lia]. Qed.
Lemma size_app l l' : size (l ++ l') = size l + size l'.
Proof. induction l; cbn [app size]; lia. Qed.
Lemma size_request l o : size (request l o) = size l.
Proof.
  destruct o as [m|]; cbn [request]; auto. destruct (nth_error l m) as [z|] eqn:Em; auto.
  pose proof (@size_upd l m (MkT (loc z) (cont z) (unw z) (en z) true (fin z)) z Em) as H. unfold tsize in *. cbn [cont unw loc fin] in *. lia.
Qed.
Definition nsize (o : option thr) : nat := match o with Some y => tsize y | None => 0 end.
Lemma lstep_size v3 n ended bx t x ch e h : lstep v3 n ended bx t x ch = Some e -> fin x = false -> shape h x -> unwok x -> ewhy e = None -> tsize (ex e) + nsize (enew e) < tsize x.
Proof.
  intros H Hf HS HU. unfold tsize at 2. rewrite Hf. leaf H; intros Hw; try discriminate Hw; unfold tsize, nsize; cbn [ex enew cont loc unw fin leave].
  all: rewrite ?Hf.
  all: try match goal with E : take_all _ _ = _ |- _ => apply take_all_len in E as (L1 & L2) end.
  all: rewrite ?rsize_app, ?rsize_pops, ?app_length; unfold tsize; cbn [rsize asize length cont unw loc fin].
  all: rewrite ?rsize_do, ?csize_new, ?app_length, ?upd_length, ?seth_length, ?removelast_length, ?upd_length; cbn [csize].
  all: repeat match goal with |- context [if ?b then _ else _] => lazymatch b with unw _ => fail | _ => destruct b end end.
  all: destruct (unw x) eqn:Eu; try lia; try discriminate.
  all: unfold unwok in HU; try (specialize (HU Eu) as (HU & _); rewrite E in HU; apply Forall_cons_iff in HU as (HU & _); cbn in HU).
  all: try contradiction; rewrite ?assign_length; lia.
Qed.
Lemma step_size v3 s t ch s' : Inv s -> step v3 s t ch = Some s' -> why s' = None -> size (ths s') < size (ths s).
Proof.
  intros HI Hs Hw'. apply step_inv in Hs as (Hw & x & e & Hx & Hf & Hl & ->). cbn [apply why] in Hw'.
  pose proof (@lstep_size _ _ _ _ _ _ _ _ _ Hl Hf (i_shape HI _ Hx) (i_unw HI _ Hx) Hw') as HL. unfold apply. cbn [ths].
  rewrite size_app, size_request. pose proof (@size_upd _ _ (ex e) _ Hx) as HU. destruct (enew e); cbn [nsize size] in *; lia.
Qed.
Lemma steps_size v3 main nb s n s' : reach v3 main nb s -> steps v3 s n s' -> n <= S (size (ths s)).
Proof.
  intros Hr Hs. revert Hr. induction Hs as [|s t ch s1 n s2 H1 H2 IH]; intros Hr; [lia|]. assert (Hr1 : reach v3 main nb s1) by (econstructor; eauto).
  specialize (IH Hr1). destruct (why s1) as [w|] eqn:Ew.
  - inversion H2 as [|a b c d e f Hb]; subst; [lia|]. unfold step in Hb. rewrite Ew in Hb. discriminate.
  - pose proof (@step_size _ _ _ _ _ (Inv_reach Hr) H1 Ew). lia.
Qed.

(** ** What the functors have done *)
Definition fd2 (f : functor) (hd : option nat) (h : list event) : Prop :=
  forall j, hd = Some j -> match f with FIntJoin => exists u, In (ERequest u j) h | FDetach | FDetachIf => exists u, In (EDetached u j) h | FJoin => True end.
Definition sh2 (h : list event) (r : list act) : Prop :=
  match r with
  | AJoin _ _ _ _ _ :: AFinish f _ hd :: _ | AJoin _ _ _ _ _ :: AAssign (Some f) _ _ hd :: _ | AFinish f _ hd :: _ | AAssign (Some f) _ _ hd :: _ => fd2 f hd h
  | _ => True
  end.
Definition eg2 (e : event) (h : list event) : Prop :=
  match e with EDestroyed _ f hd | EAssigned _ (Some f) hd => fd2 f hd h | _ => True end.
Fixpoint hg2 (h : list event) : Prop := match h with [] => True | e :: r => eg2 e r /\ hg2 r end.
Lemma hg2_split e h2 h1 : hg2 (h2 ++ e :: h1) -> eg2 e h1.
Proof. induction h2 as [|e' h2 IH]; cbn; intros [H1 H2]; auto. Qed.
Lemma fd2_mono f hd ev h : fd2 f hd h -> fd2 f hd (ev ++ h).
Proof. intros H j E. specialize (H j E). destruct f; auto; destruct H as (u & H); exists u; apply in_or_app; now right. Qed.
Lemma sh2_mono ev h r : sh2 h r -> sh2 (ev ++ h) r.
Proof. destruct r as [|[] [|[] r']]; cbn; auto using fd2_mono; try destruct f; auto using fd2_mono; destruct f0; auto using fd2_mono. Qed.
Lemma sh2_easy h r : Forall easy r -> sh2 h r.
Proof. intros H. destruct H as [|a r Ha H]; [exact I|]. destruct a; cbn in Ha |- *; try contradiction; exact I. Qed.
Lemma lstep_sh2 v3 n ended bx t x ch e h : lstep v3 n ended bx t x ch = Some e -> shape h x -> sh2 h (cont x) -> hg2 h -> sh2 (ee e ++ h) (cont (ex e)) /\ hg2 (ee e ++ h).
Proof.
  intros H HS H2 HG. pose proof H2 as H0. apply (sh2_mono (ee e)) in H0. revert H0. leaf H; intros H0; (split; [try exact H0|]); cbn [app hg2 eg2]; auto.
  all: useshape HS x; try match goal with E : cont _ = _ |- _ => rewrite E in H2, H0 end; try (inversion HS as [|? ? Ha Hr]; subst); open_shape; cbn [sh2] in *.
  all: repeat split; auto using sh2_easy, easy_repeat.
  all: try (apply sh2_easy, Forall_app; split; auto using easy_repeat; repeat constructor; fail).
  all: try match goal with E : cont _ = _ |- _ => rewrite E; cbn [sh2] end; auto.
  all: try match goal with H : Forall easy ?l |- match ?l with _ => _ end => destruct H as [|a0 r0 Ha0 _]; [exact I|]; destruct a0; cbn in Ha0; try contradiction; exact I end.
  all: try (unfold fd2; intros j Ej; try congruence; first [exists t; left; congruence|eexists; left; congruence]).
  all: try (exact (@fd2_mono _ _ [_] _ H2)).
Qed.
Lemma sh2_reach v3 main nb s : reach v3 main nb s -> (forall t x, nth_error (ths s) t = Some x -> sh2 (hist s) (cont x)) /\ hg2 (hist s).
Proof.
  induction 1 as [|s t ch s' Hr (IH & IG) Hs].
  - split; [|exact I]. intros t x Hx. destruct t as [|[|t]]; try discriminate. injection Hx as <-. apply sh2_easy, easy_do.
  - pose proof (Inv_reach Hr) as HI. apply step_inv in Hs as (Hw & x & e & Hx & Hf & Hl & ->).
    destruct (@lstep_sh2 _ _ _ _ _ _ _ _ _ Hl (i_shape HI _ Hx) (IH _ _ Hx) IG) as (H1 & H2). split; [|exact H2].
    intros u y Hy. apply apply_nth in Hy as (y0 & (_ & -> & _) & Hy). cbn [apply hist].
    destruct Hy as [(-> & _ & ->)|[(Hn & Hy)|(-> & Hy)]]; auto; [exact (sh2_mono _ _ _ (IH _ _ Hy))|].
    apply (lstep_new _ _ _ _ _ _ _ Hl) in Hy as (_ & Hy & _). now apply sh2_easy.
Qed.

(** ** The objects that represent threads *)
Lemma count_held j l : count_occ Nat.eq_dec (flat_map held l) j = cnt j l.
Proof.
  induction l as [|o l IH]; [reflexivity|]. cbn [flat_map cnt]. rewrite count_occ_app, IH. f_equal. destruct o as [k [m|]| |]; try reflexivity.
  cbn. destruct (Nat.eq_dec m j) as [ -> |Hn]; [now rewrite Nat.eqb_refl|]. apply Nat.eqb_neq in Hn. now rewrite Hn.
Qed.
Lemma count_boxed j l : count_occ Nat.eq_dec (flat_map boxed l) j = cntb j l.
Proof.
  induction l as [|o l IH]; [reflexivity|]. cbn [flat_map cntb]. rewrite count_occ_app, IH. f_equal. destruct o as [m|]; try reflexivity.
  cbn. destruct (Nat.eq_dec m j) as [ -> |Hn]; [now rewrite Nat.eqb_refl|]. apply Nat.eqb_neq in Hn. now rewrite Hn.
Qed.
Lemma count_rep s j : count_occ Nat.eq_dec (represented s) j = tot j (ths s) + cntb j (box s).
Proof.
  unfold represented. rewrite count_occ_app, count_boxed. f_equal. induction (ths s) as [|x l IH]; [reflexivity|]. cbn [flat_map tot]. rewrite count_occ_app, IH, count_held. reflexivity.
Qed.
Lemma rep_nodup v3 main nb s : reach v3 main nb s -> NoDup (represented s).
Proof.
  intros Hr. apply (NoDup_count_occ Nat.eq_dec). intros j. rewrite count_rep. pose proof (i_cnt (Inv_reach Hr) j). destruct ((1 <=? j) && (j <? length (ths s))); lia.
Qed.
Lemma rep_iff v3 main nb s j : reach v3 main nb s -> (In j (represented s) <-> started (hist s) j /\ ~ released (hist s) j).
Proof.
  intros Hr. pose proof (Inv_reach Hr) as HI. rewrite (count_occ_In Nat.eq_dec), count_rep. pose proof (i_cnt HI j) as HC.
  assert (HR : released (hist s) j <-> 0 < rel j (hist s)).
  { split; [intros (u & H); exact (rel_pos _ _ _ H)|intros H; exact (rel_in _ _ H)]. }
  rewrite (i_start HI j), HR. destruct (Nat.leb_spec 1 j), (Nat.ltb_spec j (length (ths s))); cbn [andb] in HC; lia.
Qed.
Lemma rel_once v3 main nb s h2 h1 e j u : reach v3 main nb s -> hist s = h2 ++ e :: h1 -> e = EJoined u j \/ e = EDetached u j -> started h1 j /\ ~ released h1 j /\ ~ released h2 j.
Proof.
  intros Hr E He. pose proof (Inv_reach Hr) as HI. pose proof (i_cnt HI j) as HC. rewrite E, rel_app in HC. cbn [rel] in HC.
  assert (H1 : rel1 j e = 1) by (destruct He as [ -> | -> ]; cbn; now rewrite Nat.eqb_refl).
  assert (HN : forall h, released h j -> 0 < rel j h) by (intros h (w & H); exact (rel_pos _ _ _ H)).
  assert (Hz : rel j h1 = 0 /\ rel j h2 = 0) by (destruct ((1 <=? j) && (j <? length (ths s))); lia).
  split; [|split; intros H; apply HN in H; lia].
  assert (Hj : started (hist s) j).
  { apply (i_start HI). destruct (Nat.leb_spec 1 j), (Nat.ltb_spec j (length (ths s))); cbn [andb] in HC; lia. }
  clear HC HN Hz HI. revert h2 E Hj. induction Hr as [|s t ch s' Hr IH Hs]; intros h2 E Hj; [destruct h2; discriminate|].
  apply step_inv in Hs as (Hw & x & e0 & Hx & Hf & Hl & ->). cbn [apply hist] in *.
  destruct (app_eq_app _ _ _ _ E) as (m & [(E1 & E2)|(E1 & E2)]).
  - destruct m as [|e1 m].
    + cbn in E2. refine (IH [] (eq_sym E2) _). rewrite <- E2. pose proof (i_cnt (Inv_reach Hr) j) as HC. rewrite <- E2 in HC. cbn [rel] in HC. rewrite H1 in HC.
      rewrite E2. apply (i_start (Inv_reach Hr)). destruct (Nat.leb_spec 1 j), (Nat.ltb_spec j (length (ths s))); cbn [andb] in HC; lia.
    + cbn in E2. injection E2 as <- ->. assert (Hs : started (hist s) j); [|destruct Hs as (w & Hs); exists w; apply in_or_app; now right].
      pose proof (lstep_count _ _ _ _ _ _ _ j Hl) as HC. rewrite E1, rel_app in HC. cbn [rel] in HC. rewrite H1 in HC.
      assert (HB : born (length (ths s)) j (enew e0) = 0).
      { destruct (enew e0) as [y|] eqn:Ey; [|reflexivity]. exfalso. assert (HR : rel j (ee e0) = 0) by (clear - Hl Ey; revert Ey; leaf Hl; intros Ey; try discriminate; reflexivity).
        rewrite E1, rel_app in HR. cbn [rel] in HR. lia. }
      pose proof (@tot_upd j _ _ _ (ex e0) Hx) as HT. pose proof (i_cnt (Inv_reach Hr) j) as HI.
      assert (HL : cnt j (loc x) <= tot j (ths s)) by (clear - Hx; revert t Hx; induction (ths s) as [|z l IHl]; intros [|t] Hx; cbn in *; try discriminate; [injection Hx as ->; lia|specialize (IHl _ Hx); lia]).
      apply (i_start (Inv_reach Hr)). destruct (Nat.leb_spec 1 j), (Nat.ltb_spec j (length (ths s))); cbn [andb] in HI; lia.
  - refine (IH m E2 _). pose proof (i_cnt (Inv_reach Hr) j) as HC. rewrite E2, rel_app in HC. cbn [rel] in HC. rewrite H1 in HC.
    apply (i_start (Inv_reach Hr)). destruct (Nat.leb_spec 1 j), (Nat.ltb_spec j (length (ths s))); cbn [andb] in HC; lia.
Qed.

(** ** When interruption is disabled *)
Fixpoint disok (b : bool) (l : list obj) : Prop := match l with [] => True | ODis w :: r => w = b /\ disok false r | _ :: r => disok b r end.
Fixpoint dend (b : bool) (l : list obj) : bool := match l with [] => b | ODis _ :: r => dend false r | _ :: r => dend b r end.
Lemma dend_app b l l' : dend b (l ++ l') = dend (dend b l) l'.
Proof. revert b. induction l as [|[] l IH]; intros b; cbn; auto. Qed.
Lemma disok_app b l l' : disok b (l ++ l') <-> disok b l /\ disok (dend b l) l'.
Proof. revert b. induction l as [|[] l IH]; intros b; cbn; try rewrite IH; tauto. Qed.
Lemma dis_upd b l i k h k' h' : nth_error l i = Some (OThr k h) -> dend b (upd l i (OThr k' h')) = dend b l /\ (disok b l -> disok b (upd l i (OThr k' h'))).
Proof. revert b i. induction l as [|o l IH]; intros b [|i]; cbn; try discriminate; intros H; [injection H as ->; auto|]. destruct o; try apply IH; auto. destruct (IH false i H) as (H1 & H2). split; auto. intros (H3 & H4); auto. Qed.
Lemma dis_seth b l i h : dend b (seth l i h) = dend b l /\ (disok b l -> disok b (seth l i h)).
Proof. unfold seth. destruct (nth_error l i) as [[]|] eqn:E; auto. exact (dis_upd b _ _ _ _ E). Qed.
Lemma dis_take b args : forall l l' os, take_all l args = (l', os) -> dend b l' = dend b l /\ (disok b l -> disok b l') /\ Forall (fun o => match o with OThr _ _ => True | _ => False end) os.
Proof.
  induction args as [|i args IH]; cbn; intros l l' os; [intros H; injection H as <- <-; auto|].
  destruct (nth_error l i) as [[k h|f g|w]|] eqn:E; try apply IH. destruct (take_all (upd l i (OThr k None)) args) as [l1 os1] eqn:E1. intros H; injection H as <- <-.
  apply IH in E1 as (H1 & H2 & H3). destruct (dis_upd b _ _ k None E) as (H4 & H5). split; [congruence|]. split; auto.
Qed.
Lemma dis_os b os : Forall (fun o => match o with OThr _ _ => True | _ => False end) os -> dend b os = b /\ disok b os.
Proof. induction 1 as [|[] os H]; cbn; auto; contradiction. Qed.
Lemma seth_nth l i j k h h0 : nth_error l i = Some (OThr k h0) -> exists h', nth_error (seth l j h) i = Some (OThr k h').
Proof.
  intros E. unfold seth. destruct (nth_error l j) as [[k0 h1| |]|] eqn:Ej; eauto.
  destruct (Nat.eq_dec i j) as [ <- |Hn]; [|rewrite upd_other by exact Hn; eauto]. rewrite E in Ej. injection Ej as <- <-. exists h. exact (upd_same _ _ _ E).
Qed.
Lemma dis_assign b l i j k h : nth_error l i = Some (OThr k h) -> dend b (assign l i j k) = dend b l /\ (disok b l -> disok b (assign l i j k)).
Proof.
  intros E. unfold assign. destruct (dis_upd b _ _ k None E) as (H1 & H2). destruct (dis_seth b (upd l i (OThr k None)) j None) as (H3 & H4).
  assert (E' : exists h', nth_error (seth (upd l i (OThr k None)) j None) i = Some (OThr k h')) by (eapply seth_nth, upd_same; eassumption).
  destruct E' as (h' & E'). destruct (dis_upd b _ _ k (hof (upd l i (OThr k None)) j) E') as (H5 & H6). cbn zeta. split; [congruence|auto].
Qed.
Definition ndl (l : list obj) : Prop := forall w, nth_error l (length l - 1) <> Some (ODis w).
Lemma ndl_seth l i h : ndl l -> ndl (seth l i h).
Proof.
  unfold ndl, seth. intros H w. destruct (nth_error l i) as [[]|] eqn:E; auto. rewrite upd_length.
  destruct (Nat.eq_dec (length l - 1) i) as [Hi|Hi]; [rewrite Hi, (upd_same _ _ _ E); discriminate|rewrite upd_other by exact Hi; apply H].
Qed.
Lemma ndl_removelast b l : ndl l -> disok b l -> disok b (removelast l) /\ dend b (removelast l) = dend b l.
Proof.
  intros HL HD. destruct (nth_error l (length l - 1)) as [o|] eqn:E.
  - pose proof (last_split _ E) as LS. rewrite LS in HD. apply disok_app in HD as (HD & _). split; [exact HD|]. rewrite LS at 2. rewrite dend_app. destruct o; cbn; auto. destruct (HL _ E).
  - apply nth_error_None in E. destruct l; cbn in *; [auto|lia].
Qed.
Definition enok (b : bool) (x : thr) : Prop :=
  disok b (loc x) /\
  match cont x with
  | AFinish _ was _ :: _ | AFun _ _ true :: AFinish _ was _ :: _ | AJoin _ _ true _ _ :: AFinish _ was _ :: _ => en x = false /\ was = dend b (loc x) /\ ndl (loc x)
  | _ => en x = dend b (loc x)
  end.
Lemma enok_easy b l r u e q f : Forall easy r -> disok b l -> e = dend b l -> enok b (MkT l r u e q f).
Proof. intros HR HD HE. split; [exact HD|]. cbn. destruct HR as [|a r Ha HR]; [exact HE|]. destruct a; cbn in Ha; try contradiction; exact HE. Qed.
Lemma lstep_enok b v3 n ended bx t x ch e h : lstep v3 n ended bx t x ch = Some e -> shape h x -> enok b x -> enok b (ex e) /\ forall y, enew e = Some y -> enok true y.
Proof.
  intros H HS (HD & HE). pose proof HE as HE0. leaf H; (split; [|try discriminate]).
  all: useshape HS x; try match goal with E : cont _ = _ |- _ => rewrite E in HE end; try (inversion HS as [|? ? Ha Hr]; subst); open_shape; cbn [enok] in *.
  all: try (split; [exact HD|exact HE0]).
  all: try match goal with E : take_all _ _ = _ |- _ => destruct (dis_take b _ _ E) as (L1 & L2 & L3) end.
  all: try (intros y Ey; injection Ey as <-; destruct (dis_os true L3); apply enok_easy; [apply easy_do|assumption|congruence]).
  all: try match goal with E : nth_error ?l ?i = Some (OThr ?k ?h0) |- context [upd ?l ?i (OThr ?k0 ?h1)] => destruct (dis_upd b _ _ k0 h1 E) as (U1 & U2) end.
  all: try match goal with |- context [seth (seth ?l ?i ?h0) ?j ?h1] => destruct (dis_seth b l i h0) as (S1 & S2); destruct (dis_seth b (seth l i h0) j h1) as (S3 & S4) end.
  all: try match goal with |- context [seth (loc ?x) ?i ?h0] => destruct (dis_seth b (loc x) i h0) as (S1 & S2) end.
  all: try match goal with E : nth_error ?l ?i = Some (OThr ?k ?h0) |- context [assign ?l ?i ?j ?k] => destruct (dis_assign b _ _ j E) as (U1 & U2) end.
  all: try match goal with E : nth_error ?l (length ?l - 1) = Some _ |- context [removelast ?l] => pose proof (last_split _ E) as LS; rewrite LS in HD; apply disok_app in HD as (HD & HD1); rewrite LS, dend_app in HE; cbn [dend disok] in HD1, HE end.
  all: try (apply enok_easy; [try apply Forall_app; auto using easy_repeat|rewrite ?disok_app; cbn [disok]|rewrite ?dend_app; cbn [dend]]; try (destruct (dis_os (dend b (loc x)) L3)); intuition congruence).
  all: try match goal with E : cont _ = _ |- enok _ _ => split; [exact HD|]; rewrite E; exact HE end.
  all: try (split; cbn; intuition (try congruence); auto using ndl_seth; fail).
  all: try (split; cbn; [auto|]; repeat split; auto; intros ?; congruence).
  all: match goal with H : ndl _ |- _ => destruct (ndl_removelast _ H HD) as (N1 & N2) | _ => idtac end.
  all: apply enok_easy; auto; congruence.
Qed.
Lemma enok_like b x y : alike x y -> enok b y -> enok b x.
Proof. intros (E1 & E2 & _ & E4 & _) H. unfold enok. rewrite E1, E2, E4. exact H. Qed.
Lemma enok_reach v3 main nb s : reach v3 main nb s -> forall t x, nth_error (ths s) t = Some x -> enok (negb (t =? 0)) x.
Proof.
  induction 1 as [|s t ch s' Hr IH Hs]; intros u y Hy.
  - destruct u as [|[|u]]; try discriminate. injection Hy as <-. apply enok_easy; auto using easy_do. exact I.
  - pose proof (Inv_reach Hr) as HI. apply step_inv in Hs as (Hw & x & e & Hx & Hf & Hl & ->). apply apply_nth in Hy as (y0 & Ha & Hy).
    destruct (@lstep_enok _ _ _ _ _ _ _ _ _ _ Hl (i_shape HI _ Hx) (IH _ _ Hx)) as (H1 & H2).
    apply (enok_like Ha). destruct Hy as [(-> & _ & ->)|[(Hn & Hy)|(-> & Hy)]]; auto. pose proof (i_pos HI). destruct (length (ths s)); [lia|]. cbn. auto.
Qed.
Lemma dend_false l : dend false l = false.
Proof. induction l as [|[] l IH]; cbn; auto. Qed.
Lemma dend_true l : dend true l = false <-> exists w, In (ODis w) l.
Proof.
  induction l as [|o l IH]; cbn; [split; [discriminate|intros (w & [])]|]. destruct o as [k h|f i|w]; [rewrite IH|rewrite IH|].
  - split; intros (w & H); [eauto|destruct H as [H|H]; [discriminate|eauto]].
  - split; intros (w & H); [eauto|destruct H as [H|H]; [discriminate|eauto]].
  - split; [eauto|]. intros _. apply dend_false.
Qed.
Lemma en_iff v3 main nb s t x : reach v3 main nb s -> nth_error (ths s) t = Some x ->
  (en x = false <-> t = 0 \/ in_dtor t (hist s) = true \/ exists w, In (ODis w) (loc x)).
Proof.
  intros Hr Hx. pose proof (Inv_reach Hr) as HI. pose proof (enok_reach Hr _ Hx) as (HD & HE). rewrite (i_dt HI _ Hx), <- dend_true.
  assert (HZ : t = 0 <-> negb (t =? 0) = false) by (rewrite negb_false_iff, Nat.eqb_eq; tauto). rewrite HZ.
  pose proof (i_shape HI _ Hx) as HS. unfold shape in HS.
  destruct (negb (t =? 0)).
  - destruct (cont x) as [|a r]; [cbn [dt]; intuition congruence|]. destruct a as [| |f i d|i w d ct tm| | |]; try destruct d; open_shape; cbn [dt] in *; intuition congruence.
  - split; [auto|]. intros _. rewrite dend_false in HE. destruct (cont x) as [|a r]; [exact HE|]. destruct a as [| |f i d|i w d ct tm| | |]; try destruct d; open_shape; try destruct r as [|[] r]; tauto.
Qed.

(** ** Reasons *)
Definition thr_ok (h : list event) (t : nat) (r : list act) : Prop := In AThrow r -> In (EFail t) h.
Lemma lstep_thr v3 n ended bx t x ch e h : lstep v3 n ended bx t x ch = Some e -> thr_ok h t (cont x) -> thr_ok (ee e ++ h) t (cont (ex e)) /\ forall u y, enew e = Some y -> thr_ok (ee e ++ h) u (cont y).
Proof.
  assert (HP : forall n, ~ In AThrow (repeat APop n)) by (intros m Hm; apply repeat_spec in Hm; discriminate).
  assert (HQ : forall b, ~ In AThrow (map Do b)) by (intros b Hb; apply in_map_iff in Hb as (c & Hc & _); discriminate).
  unfold thr_ok. intros H HS. leaf H; (split; [|try discriminate]); cbn [leave cont app].
  all: try (intros u y Ey; injection Ey as <-; cbn [cont]; intros Hy; destruct (HQ _ Hy)).
  all: try (intros Hi; destruct (HP _ Hi)).
  all: try match goal with E : cont _ = _ |- _ => rewrite E in HS; try rewrite E end; cbn [In] in *.
  all: try (intros Hi; repeat (destruct Hi as [Hi|Hi]; [discriminate|]); auto; fail).
  all: auto.
  all: match goal with E : cont _ = _ |- _ => rewrite E; cbn [In]; auto end.
Qed.
Lemma thr_reach v3 main nb s : reach v3 main nb s -> forall t x, nth_error (ths s) t = Some x -> thr_ok (hist s) t (cont x).
Proof.
  induction 1 as [|s t ch s' Hr IH Hs]; intros u y Hy.
  - destruct u as [|[|u]]; try discriminate. injection Hy as <-. intros Hb. apply in_map_iff in Hb as (c & Hc & _). discriminate.
  - apply step_inv in Hs as (Hw & x & e & Hx & Hf & Hl & ->). apply apply_nth in Hy as (y0 & (_ & -> & _) & Hy).
    destruct (@lstep_thr _ _ _ _ _ _ _ _ _ Hl (IH _ _ Hx)) as (H1 & H2). cbn [apply hist].
    destruct Hy as [(-> & _ & ->)|[(Hn & Hy)|(-> & Hy)]]; auto. intros Hi. apply in_or_app. right. exact (IH _ _ Hy Hi).
Qed.
Lemma why_uncaught v3 main nb s : reach v3 main nb s -> why s = Some RUncaught -> exists t, In (EFail t) (hist s) \/ In (EDeadlock t) (hist s).
Proof.
  intros Hr. destruct Hr as [|s t ch s' Hr Hs]; [discriminate|]. apply step_inv in Hs as (Hw & x & e & Hx & Hf & Hl & ->). cbn [apply why hist]. intros Ew.
  exists t. destruct (lstep_uncaught _ _ _ _ _ _ _ Hl Ew) as [(r & Er)|Hd]; [left|right; apply in_or_app; now left].
  apply in_or_app. right. apply (thr_reach Hr _ Hx). rewrite Er. now left.
Qed.
Lemma lstep_why_self v3 n ended bx t x ch e : lstep v3 n ended bx t x ch = Some e -> ewhy e = Some RSelf -> In (EDeadlock t) (ee e) /\ 0 < cnt t (loc x) /\ loc (ex e) = loc x.
Proof. intros H. leaf H; try discriminate; intros _. split; [now left|]. split; [|reflexivity]. match goal with E : (_ =? _) = true |- _ => apply Nat.eqb_eq in E; subst end. match goal with E : hof _ _ = Some _ |- _ => exact (hof_cnt _ _ E) end. Qed.
Lemma lstep_why_joinable v3 n ended bx t x ch e : lstep v3 n ended bx t x ch = Some e -> ewhy e = Some RJoinable -> exists j, 0 < cnt j (loc (ex e)).
Proof.
  intros H. leaf H; try discriminate; intros _.
  all: match goal with E : nth_error _ _ = Some (OThr _ (Some ?m)) |- _ => exists m; apply (hof_nth _ _) in E; exact (hof_cnt _ _ E) | E : hof _ _ = Some ?m |- _ => exists m; exact (hof_cnt _ _ E) end.
Qed.
Lemma cnt_rep s t x j : nth_error (ths s) t = Some x -> 0 < cnt j (loc x) -> In j (represented s).
Proof.
  intros Hx Hc. rewrite (count_occ_In Nat.eq_dec), count_rep. cut (cnt j (loc x) <= tot j (ths s)); [lia|].
  clear Hc. revert t Hx; induction (ths s) as [|z l IHl]; intros [|t] Hx; cbn in *; try discriminate; [injection Hx as ->; lia|specialize (IHl _ Hx); lia].
Qed.
Lemma why_joinable v3 main nb s : reach v3 main nb s -> why s = Some RJoinable -> v3 = true /\ exists j, In j (represented s).
Proof.
  intros Hr Ew. split; [exact (proj2 (why_reach Hr) Ew)|]. destruct Hr as [|s t ch s' Hr Hs]; [discriminate|]. apply step_inv in Hs as (Hw & x & e & Hx & Hf & Hl & ->). cbn [apply why] in Ew.
  destruct (lstep_why_joinable _ _ _ _ _ _ _ Hl Ew) as (j & Hj). exists j. rewrite (count_occ_In Nat.eq_dec), count_rep. unfold apply. cbn [ths]. rewrite tot_app.
  pose proof (@tot_upd j _ _ _ (ex e) Hx). assert (HT : tot j (request (upd (ths s) t (ex e)) (ereq e)) = tot j (upd (ths s) t (ex e))).
  { destruct (ereq e) as [m|]; [|reflexivity]. cbn [request]. destruct (nth_error (upd (ths s) t (ex e)) m) as [z|] eqn:Ez; [|reflexivity].
    pose proof (@tot_upd j _ _ _ (MkT (loc z) (cont z) (unw z) (en z) true (fin z)) Ez) as HT. cbn [loc] in HT. lia. }
  assert (HL : cnt j (loc x) <= tot j (ths s)) by (clear - Hx; revert t Hx; induction (ths s) as [|z l IHl]; intros [|t] Hx; cbn in *; try discriminate; [injection Hx as ->; lia|specialize (IHl _ Hx); lia]).
  lia.
Qed.
Lemma why_self v3 main nb s : reach v3 main nb s -> why s = Some RSelf -> exists t, In (EDeadlock t) (hist s).
Proof.
  intros Hr Ew. destruct Hr as [|s t ch s' Hr Hs]; [discriminate|]. apply step_inv in Hs as (Hw & x & e & Hx & Hf & Hl & ->). cbn [apply why] in Ew.
  destruct (lstep_why_self _ _ _ _ _ _ _ Hl Ew) as (H1 & _). exists t. apply in_or_app. now left.
Qed.

(** ** Runs *)
Fixpoint runl (v3 : bool) (s : cfg) (ls : list (nat * choice)) : option cfg :=
  match ls with [] => Some s | (t, ch) :: ls' => match step v3 s t ch with Some s1 => runl v3 s1 ls' | None => None end end.
Lemma reach_run v3 main nb s ls s' : reach v3 main nb s -> runl v3 s ls = Some s' -> reach v3 main nb s'.
Proof.
  revert s. induction ls as [|[t ch] ls IH]; cbn; intros s Hr H; [injection H as <-; exact Hr|].
  destruct (step v3 s t ch) as [s1|] eqn:E; [|discriminate]. apply (IH s1); [econstructor; eauto|exact H].
Qed.
