(** * Invariants of EC_Model *)
From Verif Require Import EC_Model EC_Spec.
Set Implicit Arguments.

Lemma upd_same : forall A (l : list A) i x, i < length l -> nth_error (upd l i x) i = Some x.
Proof. induction l as [|y l IH]; intros [|i] x H; cbn in *; try lia; auto. apply IH. lia. Qed.
Lemma upd_other : forall A (l : list A) i j x, i <> j -> nth_error (upd l i x) j = nth_error l j.
Proof. induction l as [|y l IH]; intros [|i] [|j] x H; cbn; try congruence; auto. Qed.
Lemma upd_length : forall A (l : list A) i x, length (upd l i x) = length l.
Proof. induction l as [|y l IH]; intros [|i] x; cbn; auto. Qed.
Lemma nth_lt : forall A (l : list A) i x, nth_error l i = Some x -> i < length l.
Proof. intros A l i x H. apply nth_error_Some. congruence. Qed.
Lemma upd_inv : forall A (l : list A) i x k y, nth_error (upd l i x) k = Some y -> (k = i /\ y = x) \/ (k <> i /\ nth_error l k = Some y).
Proof.
  intros A l i x k y H. destruct (Nat.eq_dec k i) as [->|Hk].
  - left. split; [reflexivity|]. assert (Hl := nth_lt _ _ H). rewrite upd_length in Hl. rewrite upd_same in H by exact Hl. congruence.
  - right. rewrite upd_other in H by congruence. auto.
Qed.
Lemma app_one : forall A (l : list A) x k y, nth_error (l ++ [x]) k = Some y -> (k = length l /\ y = x) \/ nth_error l k = Some y.
Proof.
  intros A l x k y H. destruct (Nat.lt_ge_cases k (length l)) as [Hk|Hk].
  - rewrite nth_error_app1 in H by exact Hk. auto.
  - rewrite nth_error_app2 in H by exact Hk. destruct (k - length l) as [|d] eqn:E; cbn in H.
    + left. split; [lia|congruence].
    + destruct d; discriminate.
Qed.

Definition refd (n : node) (i : nat) : Prop := par n = Some i \/ arg n = Some i \/ In i (conts n).
Definition alive (l : list node) (i : nat) : Prop := exists m, nth_error l i = Some m /\ freed m = false.
Definition dead (n : node) : Prop := futs n = 0 /\ exists_prod (act n) = false /\ par n = None /\ arg n = None /\ conts n = [].

Definition ex_from (l : list node) (k : nat) (o : origin) (x : option exr) : Prop :=
  match o with
  | OAsync e => x = Some (Named e)
  | OPromise oe => x = option_map Named oe
  | OThen i oe => exists m, nth_error l i = Some m /\ i < k /\ x = cont_ex i m oe
  end.

Record Inv (s : sys) : Prop := {
  i_dead : forall k n, nth_error (ns s) k = Some n -> freed n = true -> dead n /\ In (EFree k) (hist s);
  i_refs : forall k n i, nth_error (ns s) k = Some n -> refd n i -> alive (ns s) i;
  i_cont : forall i n k m j, nth_error (ns s) i = Some n -> In k (conts n) -> nth_error (ns s) k = Some m -> ex m = Some (Via j) -> j = i;
  i_org : forall k n, nth_error (ns s) k = Some n -> exists o, In (ECreate k o) (hist s) /\ ex_from (ns s) k o (ex n);
  i_sub : forall k o, In (ESubmit k o) (hist s) -> belongs (hist s) k o }.
Definition Cause (h : list event) : Prop := exists k i j, inherits h k i /\ inherits h i j /\ In (EFree j) h.

Lemma belongs_mono : forall h e k o, belongs h k o -> belongs (e :: h) k o.
Proof.
  induction 1 as [k e0 H|k oe H|k i e0 H|k i o H _ IH].
  - apply B_async. right. exact H.
  - apply B_promise. right. exact H.
  - apply B_named with i. right. exact H.
  - apply B_inherits with i; [right; exact H|exact IH].
Qed.

Lemma via_parent : forall s k n j, Inv s -> nth_error (ns s) k = Some n -> ex n = Some (Via j) ->
  j < k /\ In (ECreate k (OThen j None)) (hist s) /\ exists m x, nth_error (ns s) j = Some m /\ ex m = Some x.
Proof.
  intros s k n j HI Hk Hx. destruct (i_org HI _ Hk) as ([e|oe|i [e|]] & Hin & Hf); cbn in Hf.
  - congruence.
  - destruct oe; cbn in Hf; congruence.
  - destruct Hf as (m & _ & _ & Hf). congruence.
  - destruct Hf as (m & Hm & Hlt & Hf). destruct (ex m) as [x|] eqn:Em; [|congruence]. assert (i = j) by congruence. subst i.
    split; [exact Hlt|]. split; [exact Hin|]. exists m, x. auto.
Qed.
Lemma named_belongs : forall s k n e, Inv s -> nth_error (ns s) k = Some n -> ex n = Some (Named e) -> belongs (hist s) k (Some e).
Proof.
  intros s k n e HI Hk Hx. destruct (i_org HI _ Hk) as ([e'|oe|i [e'|]] & Hin & Hf); cbn in Hf.
  - assert (e' = e) by congruence. subst e'. apply B_async. exact Hin.
  - destruct oe as [e'|]; cbn in Hf; [|congruence]. assert (e' = e) by congruence. subst e'. apply B_promise. exact Hin.
  - destruct Hf as (m & _ & _ & Hf). assert (e' = e) by congruence. subst e'. apply B_named with i. exact Hin.
  - destruct Hf as (m & _ & _ & Hf). destruct (ex m); congruence.
Qed.
Lemma none_belongs : forall s k n, Inv s -> nth_error (ns s) k = Some n -> ex n = None -> belongs (hist s) k None.
Proof.
  intros s k. induction k as [k IH] using lt_wf_ind. intros n HI Hk Hx. destruct (i_org HI _ Hk) as ([e'|oe|i [e'|]] & Hin & Hf); cbn in Hf.
  - congruence.
  - destruct oe as [e'|]; cbn in Hf; [congruence|]. apply B_promise. exact Hin.
  - destruct Hf as (m & _ & _ & Hf). congruence.
  - destruct Hf as (m & Hm & Hlt & Hf). destruct (ex m) eqn:Em; [congruence|]. apply B_inherits with i; [exact Hin|]. exact (IH i Hlt m HI Hm Em).
Qed.
Lemma some_belongs : forall s k n x, Inv s -> nth_error (ns s) k = Some n -> ex n = Some x -> exists e, belongs (hist s) k (Some e).
Proof.
  intros s k. induction k as [k IH] using lt_wf_ind. intros n x HI Hk Hx. destruct x as [e|j].
  - exists e. exact (@named_belongs s k n e HI Hk Hx).
  - destruct (@via_parent s k n j HI Hk Hx) as (Hlt & Hin & m & x & Hm & Em). destruct (IH j Hlt m x HI Hm Em) as (e & He). exists e. apply B_inherits with j; assumption.
Qed.

Lemma resolve_belongs : forall s f k n o, Inv s -> nth_error (ns s) k = Some n -> resolve f (ns s) (ex n) = To o -> belongs (hist s) k o.
Proof.
  intros s f. induction f as [|f IH]; intros k n o HI Hk Hr; destruct (ex n) as [[e|j]|] eqn:Ex; cbn in Hr; try discriminate.
  - injection Hr as <-. exact (@named_belongs s k n e HI Hk Ex).
  - injection Hr as <-. exact (@none_belongs s k n HI Hk Ex).
  - injection Hr as <-. exact (@named_belongs s k n e HI Hk Ex).
  - destruct (@via_parent s k n j HI Hk Ex) as (Hlt & Hin & m & x & Hm & Em). rewrite Hm in Hr. destruct (freed m); [discriminate|].
    apply B_inherits with j; [exact Hin|]. exact (IH j m o HI Hm Hr).
  - injection Hr as <-. exact (@none_belongs s k n HI Hk Ex).
Qed.
Lemma dangling_cause : forall s f k n i, Inv s -> nth_error (ns s) k = Some n -> ex n = Some (Via i) -> i < f -> alive (ns s) i ->
  resolve f (ns s) (ex n) = Dangling -> Cause (hist s).
Proof.
  intros s f. induction f as [|f IH]; intros k n i HI Hk Ex Hf Hal Hr; [lia|]. rewrite Ex in Hr. cbn in Hr.
  destruct Hal as (m & Hm & Hfm). rewrite Hm, Hfm in Hr.
  destruct (@via_parent s k n i HI Hk Ex) as (Hlt & Hin & _). destruct (ex m) as [[e|j]|] eqn:Em; try (destruct f; discriminate).
  destruct (@via_parent s i m j HI Hm Em) as (Hlt' & Hin' & p & x & Hp & Ep).
  destruct (freed p) eqn:Hfp.
  - exists k, i, j. repeat split.
    + exact Hin.
    + exact (@some_belongs s i m _ HI Hm Em).
    + exact Hin'.
    + exact (@some_belongs s j p _ HI Hp Ep).
    + apply (i_dead HI _ Hp Hfp).
  - apply (IH i m j HI Hm Em).
    + lia.
    + exists p. auto.
    + rewrite Em. exact Hr.
Qed.

(** ** Updates *)
Lemma put_alive : forall s i n n' x, nth_error (ns s) i = Some n -> freed n' = freed n -> alive (ns s) x -> alive (ns (put s i n')) x.
Proof.
  intros s i n n' x Hi Hf (m & Hm & Hfm). cbn. destruct (Nat.eq_dec i x) as [->|Hne].
  - exists n'. split; [apply upd_same; exact (nth_lt _ _ Hi)|congruence].
  - exists m. rewrite upd_other by exact Hne. auto.
Qed.
Lemma put_ex : forall s i n n' k m, nth_error (ns s) i = Some n -> ex n' = ex n -> nth_error (ns s) k = Some m -> exists m', nth_error (ns (put s i n')) k = Some m' /\ ex m' = ex m.
Proof.
  intros s i n n' k m Hi He Hm. cbn. destruct (Nat.eq_dec i k) as [->|Hne].
  - exists n'. split; [apply upd_same; exact (nth_lt _ _ Hi)|congruence].
  - exists m. rewrite upd_other by exact Hne. auto.
Qed.
Lemma put_inv : forall s i n n', Inv s -> nth_error (ns s) i = Some n -> ex n' = ex n -> freed n' = freed n ->
  (forall x, refd n' x -> alive (ns s) x) -> (freed n = true -> dead n') ->
  (forall k m j, In k (conts n') -> nth_error (ns s) k = Some m -> ex m = Some (Via j) -> j = i) -> Inv (put s i n').
Proof.
  intros s i n n' HI Hi He Hf Href Hdead Hcont. split.
  - intros k m Hk Hfm. cbn in Hk. apply upd_inv in Hk. destruct Hk as [(-> & ->)|(Hne & Hk)].
    + split; [apply Hdead; congruence|]. apply (i_dead HI _ Hi). congruence.
    + exact (i_dead HI _ Hk Hfm).
  - intros k m x Hk Hr. apply put_alive with n; auto. cbn in Hk. apply upd_inv in Hk. destruct Hk as [(-> & ->)|(Hne & Hk)].
    + exact (Href _ Hr).
    + exact (i_refs HI _ Hk Hr).
  - intros a na k m j Ha Hin Hk Ex. cbn in Ha, Hk. assert (Hk' : exists m0, nth_error (ns s) k = Some m0 /\ ex m0 = Some (Via j)).
    { apply upd_inv in Hk. destruct Hk as [(-> & ->)|(_ & Hk)]; [exists n|exists m]; split; auto; congruence. }
    destruct Hk' as (m0 & Hm0 & Em0). apply upd_inv in Ha. destruct Ha as [(-> & ->)|(_ & Ha)].
    + exact (Hcont _ _ _ Hin Hm0 Em0).
    + exact (i_cont HI _ _ Ha Hin Hm0 Em0).
  - intros k m Hk. assert (Hk' : exists m0, nth_error (ns s) k = Some m0 /\ ex m0 = ex m).
    { cbn in Hk. apply upd_inv in Hk. destruct Hk as [(-> & ->)|(_ & Hk)]; [exists n|exists m]; auto. }
    destruct Hk' as (m0 & Hm0 & Em0). destruct (i_org HI _ Hm0) as (o & Hin & Hfrom). exists o. split; [exact Hin|]. rewrite <- Em0.
    destruct o as [e|oe|a oe]; cbn in *; try exact Hfrom. destruct Hfrom as (p & Hp & Hlt & Hx).
    destruct (@put_ex s i n n' a p Hi He Hp) as (p' & Hp' & Ep'). exists p'. split; [exact Hp'|]. split; [exact Hlt|]. rewrite Hx. unfold cont_ex. rewrite Ep'. reflexivity.
  - exact (i_sub HI).
Qed.
Lemma say_inv : forall s e, Inv s -> (forall k o, e = ESubmit k o -> belongs (hist s) k o) -> Inv (say s e).
Proof.
  intros s e HI He. split.
  - intros k n Hk Hf. destruct (i_dead HI _ Hk Hf) as (A & B). split; [exact A|right; exact B].
  - exact (i_refs HI).
  - exact (i_cont HI).
  - intros k n Hk. destruct (i_org HI _ Hk) as (o & Hin & Hf). exists o. split; [right; exact Hin|exact Hf].
  - intros k o [Hin|Hin]; apply belongs_mono; [apply He; exact Hin|exact (i_sub HI _ _ Hin)].
Qed.
Lemma crash_inv : forall s, Inv s -> Inv (crash s).
Proof. intros s HI. split; apply HI. Qed.
Lemma add_inv : forall s n o, Inv s -> freed n = false -> arg n = None -> conts n = [] -> (forall i, par n = Some i -> alive (ns s) i) ->
  ex_from (ns s) (length (ns s)) o (ex n) -> Inv (add s n o).
Proof.
  intros s n o HI Hf Harg Hc Hpar Hfrom.
  assert (Hgrow : forall k m, nth_error (ns s) k = Some m -> nth_error (ns (add s n o)) k = Some m).
  { intros k m Hk. cbn. rewrite nth_error_app1; [exact Hk|exact (nth_lt _ _ Hk)]. }
  assert (Hal : forall x, alive (ns s) x -> alive (ns (add s n o)) x).
  { intros x (m & Hm & Hfm). exists m. auto. }
  split.
  - intros k m Hk Hfm. apply app_one in Hk. destruct Hk as [(-> & ->)|Hk]; [congruence|]. destruct (i_dead HI _ Hk Hfm) as (A & B). split; [exact A|right; exact B].
  - intros k m x Hk Hr. apply Hal. apply app_one in Hk. destruct Hk as [(-> & ->)|Hk]; [|exact (i_refs HI _ Hk Hr)].
    destruct Hr as [Hr|[Hr|Hr]]; [exact (Hpar _ Hr)|congruence|rewrite Hc in Hr; destruct Hr].
  - intros i m k p j Hi Hin Hk Ex. apply app_one in Hi. destruct Hi as [(-> & ->)|Hi]; [rewrite Hc in Hin; destruct Hin|].
    destruct (i_refs HI _ Hi (or_intror (or_intror Hin))) as (q & Hq & _). rewrite (Hgrow _ _ Hq) in Hk. assert (q = p) by congruence. subst q. exact (i_cont HI _ _ Hi Hin Hq Ex).
  - intros k m Hk. apply app_one in Hk. destruct Hk as [(-> & ->)|Hk].
    + exists o. split; [left; reflexivity|]. destruct o as [e|oe|i oe]; cbn in *; try exact Hfrom. destruct Hfrom as (p & Hp & Hlt & Hx). exists p. auto.
    + destruct (i_org HI _ Hk) as (o' & Hin & Hf'). exists o'. split; [right; exact Hin|]. destruct o' as [e|oe|i oe]; cbn in *; try exact Hf'.
      destruct Hf' as (p & Hp & Hlt & Hx). exists p. auto.
  - intros k o' [Hin|Hin]; [discriminate|]. apply belongs_mono. exact (i_sub HI _ _ Hin).
Qed.

Definition Ok (s : sys) : Prop := Inv s /\ (bad s = true -> Cause (hist s)).

(** ** Launching *)
(** only the producers change *)
Definition same_shape (s s' : sys) : Prop :=
  length (ns s') = length (ns s) /\
  forall k m, nth_error (ns s) k = Some m -> exists m', nth_error (ns s') k = Some m' /\ ex m' = ex m /\ freed m' = freed m /\ conts m' = conts m.
Lemma same_refl : forall s, same_shape s s.
Proof. intros s. split; [reflexivity|]. intros k m H. exists m. auto. Qed.
Lemma same_trans : forall a b c, same_shape a b -> same_shape b c -> same_shape a c.
Proof.
  intros a b c (L1 & H1) (L2 & H2). split; [congruence|]. intros k m Hk. destruct (H1 _ _ Hk) as (m' & Hm' & A & B & C). destruct (H2 _ _ Hm') as (m'' & Hm'' & A' & B' & C').
  exists m''. repeat split; congruence.
Qed.
Lemma launch_ok : forall s k i, Ok s -> bad s = false -> alive (ns s) k -> alive (ns s) i -> (forall n j, nth_error (ns s) k = Some n -> ex n = Some (Via j) -> j = i) ->
  Ok (launch s k) /\ same_shape s (launch s k).
Proof.
  intros s k i (HI & HC) Hb (n & Hk & Hf) Hal Hvia. unfold launch. rewrite Hk, Hf. destruct (resolve (length (ns s)) (ns s) (ex n)) as [o|] eqn:Er.
  - split; [split|].
    + apply say_inv.
      * apply put_inv with n; auto.
        -- intros x Hx. exact (i_refs HI _ Hk Hx).
        -- congruence.
        -- intros a m j Hin Ha Ex. exact (i_cont HI _ _ Hk Hin Ha Ex).
      * intros k' o' E. injection E as <- <-. exact (@resolve_belongs s _ k n o HI Hk Er).
    + cbn. congruence.
    + split; [cbn; apply upd_length|]. intros a m Ha. cbn. destruct (Nat.eq_dec k a) as [->|Hne].
      * exists (set_act n AQueued). assert (m = n) by congruence. subst m. split; [apply upd_same; exact (nth_lt _ _ Hk)|auto].
      * exists m. rewrite upd_other by exact Hne. auto.
  - split; [split|].
    + apply crash_inv. exact HI.
    + intros _. cbn. destruct (ex n) as [[e|j]|] eqn:Ex; try (destruct (length (ns s)); discriminate).
      assert (j = i) by (eapply Hvia; eauto). subst j. destruct (@via_parent s k n i HI Hk Ex) as (Hlt & _). apply (@dangling_cause s (length (ns s)) k n i HI Hk Ex).
      * assert (Hl := nth_lt _ _ Hk). lia.
      * exact Hal.
      * rewrite Ex. exact Er.
    + split; [reflexivity|]. intros a m Ha. exists m. auto.
Qed.
Lemma launch_all_ok : forall ks s i, Ok s -> alive (ns s) i -> (forall k, In k ks -> alive (ns s) k /\ forall n j, nth_error (ns s) k = Some n -> ex n = Some (Via j) -> j = i) ->
  Ok (launch_all s ks).
Proof.
  induction ks as [|k ks IH]; intros s i Hok Hal Hks; cbn; [exact Hok|]. destruct (bad s) eqn:Hb; [exact Hok|].
  destruct (Hks k (or_introl eq_refl)) as (Hk & Hv). destruct (launch_ok Hok Hb Hk Hal Hv) as (Hok' & _ & Hsame).
  assert (Hal' : forall x, alive (ns s) x -> alive (ns (launch s k)) x).
  { intros x (m & Hm & Hf). destruct (Hsame _ _ Hm) as (m' & Hm' & _ & Hf' & _). exists m'. split; [exact Hm'|congruence]. }
  apply (IH (launch s k) i Hok' (Hal' _ Hal)). intros k' Hin. destruct (Hks k' (or_intror Hin)) as (Hk' & Hv'). split; [auto|]. intros n j Hn Ex.
  destruct Hk' as (m & Hm & _). destruct (Hsame _ _ Hm) as (m' & Hm' & He & _ & _). apply (Hv' m j Hm). congruence.
Qed.
Lemma finish_ok : forall s i n, Ok s -> bad s = false -> nth_error (ns s) i = Some n -> freed n = false -> Ok (finish s i n).
Proof.
  intros s i n (HI & HC) Hb Hi Hf. unfold finish. set (n' := set_conts (set_act n ADone) []).
  assert (HI' : Inv (put s i n')).
  { apply put_inv with n; auto; unfold n'; cbn.
    - intros x [Hx|[Hx|[]]]; [exact (i_refs HI _ Hi (or_introl Hx))|exact (i_refs HI _ Hi (or_intror (or_introl Hx)))].
    - congruence.
    - intros k m j []. }
  assert (Hal : forall x, alive (ns s) x -> alive (ns (put s i n')) x) by (intros x Hx; exact (@put_alive s i n n' x Hi eq_refl Hx)).
  apply launch_all_ok with i.
  - split; [exact HI'|]. cbn. congruence.
  - apply Hal. exists n. auto.
  - intros k Hin. split; [apply Hal; exact (i_refs HI _ Hi (or_intror (or_intror Hin)))|]. intros m j Hm Ex. cbn in Hm. apply upd_inv in Hm. destruct Hm as [(-> & ->)|(_ & Hm)].
    + exact (i_cont HI _ _ Hi Hin Hi Ex).
    + exact (i_cont HI _ _ Hi Hin Hm Ex).
Qed.

Lemma sum_zero : forall l k n i, nth_error l k = Some n -> owned_by_states l i = 0 -> holds i n = 0.
Proof.
  unfold owned_by_states. induction l as [|m l IH]; intros [|k] n i Hk H; cbn in *; try discriminate.
  - injection Hk as ->. apply Nat.eq_add_0 in H. apply H.
  - apply (IH k n i Hk). apply Nat.eq_add_0 in H. apply H.
Qed.
Lemma holds_refd : forall i n, holds i n = 0 -> ~ refd n i.
Proof.
  unfold holds. intros i n H [Hp|[Ha|Hc]].
  - rewrite Hp in H. cbn in H. rewrite Nat.eqb_refl in H. lia.
  - rewrite Ha in H. cbn in H. rewrite Nat.eqb_refl in H. lia.
  - apply (count_occ_In Nat.eq_dec) in Hc. lia.
Qed.

Lemma ok0 : Ok sys0.
Proof.
  split; [|intros H; discriminate]. split.
  - intros [|k] n H; discriminate.
  - intros [|k] n i H; discriminate.
  - intros [|k] n a m j H; discriminate.
  - intros [|k] n H; discriminate.
  - intros k o [].
Qed.

Lemma exec_ok : forall s l s', Ok s -> exec s l = Some s' -> Ok s'.
Proof.
  intros s l s' (HI & HC) He. unfold exec in He. destruct (bad s) eqn:Hb; [discriminate|].
  assert (Hok : Ok s) by (split; [exact HI|congruence]).
  assert (Hnf : forall i n, nth_error (ns s) i = Some n -> futs n <> 0 \/ exists_prod (act n) = true \/ arg n <> None -> freed n = false).
  { intros i n Hi H. destruct (freed n) eqn:Hf; [|reflexivity]. destruct (i_dead HI _ Hi Hf) as ((A & B & C & D & E) & _). destruct H as [H|[H|H]]; congruence. }
  destruct l as [e|oe|i oe sh|i|k|k|k|k|i|i|i|i].
  - injection He as <-. split; [|cbn; congruence]. apply say_inv.
    + apply add_inv; auto; cbn; [discriminate|reflexivity].
    + intros k o E. injection E as <- <-. apply B_async. left. reflexivity.
  - injection He as <-. split; [|cbn; congruence]. apply add_inv; auto; cbn; [discriminate|reflexivity].
  - destruct (nth_error (ns s) i) as [n|] eqn:Hi; [|discriminate]. destruct (futs n =? 0) eqn:Hft; [discriminate|]. apply Nat.eqb_neq in Hft.
    rewrite (Hnf _ _ Hi (or_introl Hft)) in He. injection He as <-.
    assert (Hf := Hnf _ _ Hi (or_introl Hft)). set (nk := MkN (cont_ex i n oe) AWait 1 (Some i) None [] false).
    set (n1 := if sh then n else set_futs n (pred (futs n))). set (k := length (ns s)).
    assert (Hlt : i < k) by exact (nth_lt _ _ Hi).
    assert (HI1 : Inv (add s nk (OThen i oe))).
    { apply add_inv; auto.
      - cbn. intros a Ea. injection Ea as <-. exists n. auto.
      - cbn. exists n. auto. }
    assert (Hi1 : nth_error (ns (add s nk (OThen i oe))) i = Some n) by (cbn; rewrite nth_error_app1; assumption).
    assert (Hk1 : nth_error (ns (add s nk (OThen i oe))) k = Some nk) by (cbn; unfold k; rewrite nth_error_app2, Nat.sub_diag by lia; reflexivity).
    assert (E1 : ex n1 = ex n /\ freed n1 = freed n /\ par n1 = par n /\ arg n1 = arg n /\ conts n1 = conts n) by (unfold n1; destruct sh; auto).
    destruct E1 as (E1 & E2 & E3 & E4 & E5). set (n2 := if is_done (act n) then n1 else set_conts n1 (conts n ++ [k])).
    assert (F1 : ex n2 = ex n /\ freed n2 = freed n /\ par n2 = par n /\ arg n2 = arg n) by (unfold n2; destruct (is_done (act n)); auto).
    destruct F1 as (F1 & F2 & F3 & F4).
    assert (F5 : forall x, In x (conts n2) -> In x (conts n) \/ x = k).
    { intros x. unfold n2. destruct (is_done (act n)); [rewrite E5; auto|]. cbn. rewrite in_app_iff. cbn. intuition. }
    assert (HI2 : Inv (put (add s nk (OThen i oe)) i n2)).
    { apply put_inv with n; auto.
      - intros x [Hx|[Hx|Hx]].
        + apply (i_refs HI1 _ Hi1). left. congruence.
        + apply (i_refs HI1 _ Hi1). right. left. congruence.
        + destruct (F5 _ Hx) as [Hx'| ->]; [apply (i_refs HI1 _ Hi1); right; right; exact Hx'|exists nk; auto].
      - congruence.
      - intros a m j Ha Hm Ex. destruct (F5 _ Ha) as [Ha'| ->]; [exact (i_cont HI1 _ _ Hi1 Ha' Hm Ex)|]. assert (m = nk) by congruence. subst m. cbn in Ex. unfold cont_ex in Ex.
        destruct oe; [discriminate|]. destruct (ex n); congruence. }
    assert (Hok2 : Ok (put (add s nk (OThen i oe)) i n2)) by (split; [exact HI2|cbn; congruence]).
    destruct (is_done (act n)) eqn:Hd; [|exact Hok2].
    apply launch_ok with i; auto.
    + exists nk. split; [|reflexivity]. cbn [put ns]. rewrite upd_other; [exact Hk1|lia].
    + exists n2. split; [|congruence]. cbn [put ns]. apply upd_same. exact (nth_lt _ _ Hi1).
    + intros m j Hm Ex. cbn [put ns] in Hm. rewrite upd_other in Hm by lia. assert (m = nk) by congruence. subst m. cbn in Ex. unfold cont_ex in Ex.
      destruct oe; [discriminate|]. destruct (ex n); congruence.
  - destruct (nth_error (ns s) i) as [n|] eqn:Hi; [|discriminate]. destruct (act n) eqn:Ha; try discriminate. injection He as <-.
    assert (Hf : freed n = false) by (apply (Hnf _ _ Hi); rewrite Ha; auto). rewrite Hf. apply finish_ok; auto.
  - destruct (nth_error (ns s) k) as [n|] eqn:Hk; [|discriminate]. destruct (act n) eqn:Ha; try discriminate. injection He as <-.
    assert (Hf : freed n = false) by (apply (Hnf _ _ Hk); rewrite Ha; auto). rewrite Hf. split; [|cbn; congruence]. apply say_inv; [|discriminate].
    apply put_inv with n; auto; cbn.
    + intros x [Hx|[Hx|Hx]]; [discriminate|exact (i_refs HI _ Hk (or_introl Hx))|exact (i_refs HI _ Hk (or_intror (or_intror Hx)))].
    + congruence.
    + intros a m j Hin Hm Ex. exact (i_cont HI _ _ Hk Hin Hm Ex).
  - destruct (nth_error (ns s) k) as [n|] eqn:Hk; [|discriminate]. destruct (act n) eqn:Ha; try discriminate. injection He as <-.
    assert (Hf : freed n = false) by (apply (Hnf _ _ Hk); rewrite Ha; auto). rewrite Hf. apply finish_ok; auto.
  - destruct (nth_error (ns s) k) as [n|] eqn:Hk; [|discriminate]. destruct (arg n) as [i|] eqn:Harg; [|discriminate]. injection He as <-.
    assert (Hf : freed n = false) by (apply (Hnf _ _ Hk); rewrite Harg; right; right; discriminate).
    split; [|cbn; congruence]. apply put_inv with n; auto; cbn.
    + intros x [Hx|[Hx|Hx]]; [exact (i_refs HI _ Hk (or_introl Hx))|discriminate|exact (i_refs HI _ Hk (or_intror (or_intror Hx)))].
    + congruence.
    + intros a m j Hin Hm Ex. exact (i_cont HI _ _ Hk Hin Hm Ex).
  - destruct (nth_error (ns s) k) as [n|] eqn:Hk; [|discriminate]. destruct (arg n) as [i|] eqn:Harg; [|discriminate].
    destruct (nth_error (ns s) i) as [m|] eqn:Hi; [|discriminate]. destruct (i =? k) eqn:Hik; [discriminate|]. apply Nat.eqb_neq in Hik. injection He as <-.
    assert (Hf : freed n = false) by (apply (Hnf _ _ Hk); rewrite Harg; right; right; discriminate).
    destruct (i_refs HI _ Hk (or_intror (or_introl Harg))) as (m' & Hm' & Hfm). assert (m' = m) by congruence. subst m'. rewrite Hfm.
    split; [|cbn; congruence].
    assert (HI1 : Inv (put s k (set_pa n (par n) None))).
    { apply put_inv with n; auto; cbn.
      - intros x [Hx|[Hx|Hx]]; [exact (i_refs HI _ Hk (or_introl Hx))|discriminate|exact (i_refs HI _ Hk (or_intror (or_intror Hx)))].
      - congruence.
      - intros a p j Hin Hp Ex. exact (i_cont HI _ _ Hk Hin Hp Ex). }
    assert (Hi1 : nth_error (ns (put s k (set_pa n (par n) None))) i = Some m) by (cbn; rewrite upd_other by congruence; exact Hi).
    apply put_inv with m; auto; cbn [set_futs conts freed].
    + intros x Hx. exact (i_refs HI1 _ Hi1 Hx).
    + congruence.
    + intros a p j Hin Hp Ex. exact (i_cont HI1 _ _ Hi1 Hin Hp Ex).
  - destruct (nth_error (ns s) i) as [n|] eqn:Hi; [|discriminate]. destruct (act n) eqn:Ha; try discriminate. destruct (arg n) eqn:Harg; [discriminate|]. injection He as <-.
    assert (Hf : freed n = false) by (apply (Hnf _ _ Hi); rewrite Ha; auto). split; [|cbn; congruence]. apply put_inv with n; auto; cbn.
    + intros x Hx. exact (i_refs HI _ Hi Hx).
    + congruence.
    + intros a p j Hin Hp Ex. exact (i_cont HI _ _ Hi Hin Hp Ex).
  - destruct (nth_error (ns s) i) as [n|] eqn:Hi; [|discriminate]. destruct (futs n =? 0) eqn:Hft; [discriminate|]. apply Nat.eqb_neq in Hft.
    assert (Hf := Hnf _ _ Hi (or_introl Hft)). rewrite Hf in He. injection He as <-. split; [|cbn; congruence]. apply put_inv with n; auto; cbn.
    + intros x Hx. exact (i_refs HI _ Hi Hx).
    + congruence.
    + intros a p j Hin Hp Ex. exact (i_cont HI _ _ Hi Hin Hp Ex).
  - destruct (nth_error (ns s) i) as [n|] eqn:Hi; [|discriminate]. destruct (futs n =? 0) eqn:Hft; [discriminate|]. apply Nat.eqb_neq in Hft.
    assert (Hf := Hnf _ _ Hi (or_introl Hft)). rewrite Hf in He. injection He as <-. split; [|cbn; congruence]. apply put_inv with n; auto; cbn.
    + intros x Hx. exact (i_refs HI _ Hi Hx).
    + congruence.
    + intros a p j Hin Hp Ex. exact (i_cont HI _ _ Hi Hin Hp Ex).
  - destruct (nth_error (ns s) i) as [n|] eqn:Hi; [|discriminate]. destruct (freed n || negb (owners (ns s) i =? 0)) eqn:Hg; [discriminate|]. injection He as <-.
    apply orb_false_iff in Hg. destruct Hg as (Hf & Ho). apply negb_false_iff, Nat.eqb_eq in Ho. unfold owners in Ho. rewrite Hi in Ho.
    assert (Hz : owned_by_states (ns s) i = 0) by lia.
    assert (Hno : forall k m, nth_error (ns s) k = Some m -> ~ refd m i) by (intros k m Hk; apply holds_refd; exact (sum_zero _ _ _ Hk Hz)).
    assert (Hpr : exists_prod (act n) = false) by (destruct (exists_prod (act n)); [lia|reflexivity]).
    split; [|cbn; congruence]. set (nf := MkN (ex n) (act n) (futs n) None None [] true). split.
    + intros k m Hk Hfm. cbn in Hk. apply upd_inv in Hk. destruct Hk as [(-> & ->)|(_ & Hk)].
      * split; [repeat split; auto; cbn; lia|left; reflexivity].
      * destruct (i_dead HI _ Hk Hfm) as (A & B). split; [exact A|right; exact B].
    + intros k m x Hk Hr. cbn in Hk. apply upd_inv in Hk. destruct Hk as [(-> & ->)|(_ & Hk)].
      * destruct Hr as [Hr|[Hr|Hr]]; [discriminate|discriminate|destruct Hr].
      * destruct (i_refs HI _ Hk Hr) as (p & Hp & Hfp). exists p. split; [|exact Hfp]. cbn. rewrite upd_other; [exact Hp|]. intros ->. exact (Hno _ _ Hk Hr).
    + intros a na k m j Ha Hin Hk Ex. cbn in Ha, Hk. apply upd_inv in Ha. destruct Ha as [(-> & ->)|(_ & Ha)]; [destruct Hin|].
      apply upd_inv in Hk. destruct Hk as [(-> & ->)|(_ & Hk)].
      * exact (i_cont HI _ _ Ha Hin Hi Ex).
      * exact (i_cont HI _ _ Ha Hin Hk Ex).
    + intros k m Hk. assert (Hk' : exists m0, nth_error (ns s) k = Some m0 /\ ex m0 = ex m).
      { cbn in Hk. apply upd_inv in Hk. destruct Hk as [(-> & ->)|(_ & Hk)]; [exists n|exists m]; auto. }
      destruct Hk' as (m0 & Hm0 & Em0). destruct (i_org HI _ Hm0) as (o & Hin & Hfrom). exists o. split; [right; exact Hin|]. rewrite <- Em0.
      destruct o as [e|oe|a oe]; cbn in *; try exact Hfrom. destruct Hfrom as (p & Hp & Hlt & Hx).
      destruct (@put_ex s i n nf a p Hi eq_refl Hp) as (p' & Hp' & Ep'). exists p'. split; [exact Hp'|]. split; [exact Hlt|]. rewrite Hx. unfold cont_ex. rewrite Ep'. reflexivity.
    + intros k o [Hin|Hin]; [discriminate|]. apply belongs_mono. exact (i_sub HI _ _ Hin).
Qed.
Lemma runl_ok : forall ls s s', Ok s -> runl s ls = Some s' -> Ok s'.
Proof.
  induction ls as [|l ls IH]; intros s s' Hok H; cbn in H; [congruence|]. destruct (exec s l) as [s1|] eqn:E; [|discriminate].
  exact (IH _ _ (exec_ok _ Hok E) H).
Qed.
Lemma reach_ok : forall s, reach s -> Ok s.
Proof. intros s (ls & H). exact (runl_ok _ ok0 H). Qed.
