(** * Proofs about unwrap() *)
From Verif Require Import UW_Model UW_Spec.
Set Implicit Arguments.

Section ModLemmas.
Variable A : Type.
Lemma modify_length (l : list A) t f : length (modify l t f) = length l.
Proof. revert t; induction l; destruct t; cbn; auto. Qed.
Lemma nth_modify (l : list A) t f i : nth_error (modify l t f) i = if i =? t then option_map f (nth_error l i) else nth_error l i.
Proof.
  revert t i; induction l as [|a l IH]; intros [|t] [|i]; cbn; auto.
  - destruct (i =? t); reflexivity.
Qed.
Fixpoint sumi (f : nat -> A -> nat) (k : nat) (l : list A) : nat := match l with [] => 0 | a :: l' => f k a + sumi f (S k) l' end.
Lemma sumi_app f l l' : forall k, sumi f k (l ++ l') = sumi f k l + sumi f (k + length l) l'.
Proof. induction l as [|a l IH]; intros k; cbn. now rewrite Nat.add_0_r. rewrite IH. replace (S k + length l) with (k + S (length l)) by lia. lia. Qed.
Lemma sumi_modify f l g : forall i k x, nth_error l i = Some x -> sumi f k (modify l i g) + f (k + i) x = sumi f k l + f (k + i) (g x).
Proof.
  induction l as [|a l IH]; intros [|i] k x H; cbn in *; try discriminate.
  - injection H as ->. rewrite Nat.add_0_r. lia.
  - replace (k + S i) with (S k + i) by lia. specialize (IH i (S k) x H). lia.
Qed.
Lemma sumi_ge f l : forall i k x, nth_error l i = Some x -> f (k + i) x <= sumi f k l.
Proof.
  induction l as [|a l IH]; intros [|i] k x H; cbn in *; try discriminate.
  - injection H as ->. rewrite Nat.add_0_r. lia.
  - replace (k + S i) with (S k + i) by lia. specialize (IH i (S k) x H). lia.
Qed.
Lemma sumi_ge2 f l : forall i i' k x x', i <> i' -> nth_error l i = Some x -> nth_error l i' = Some x' -> f (k + i) x + f (k + i') x' <= sumi f k l.
Proof.
  induction l as [|a l IH]; intros [|i] [|i'] k x x' Hn H H'; cbn in *; try discriminate; try congruence.
  - injection H as ->. rewrite Nat.add_0_r. replace (k + S i') with (S k + i') by lia. pose proof (@sumi_ge f l i' (S k) x' H'). lia.
  - injection H' as ->. rewrite Nat.add_0_r. replace (k + S i) with (S k + i) by lia. pose proof (@sumi_ge f l i (S k) x H). lia.
  - replace (k + S i) with (S k + i) by lia. replace (k + S i') with (S k + i') by lia. assert (Hi : i <> i') by congruence. pose proof (IH i i' (S k) x x' Hi H H'). lia.
Qed.
Lemma sumi_zero f l : forall k, (forall i x, nth_error l i = Some x -> f (k + i) x = 0) -> sumi f k l = 0.
Proof.
  induction l as [|a l IH]; intros k H; cbn; [reflexivity|]. pose proof (H 0 a eq_refl) as E. rewrite Nat.add_0_r in E. rewrite E. cbn. apply IH.
  intros i x Hx. replace (S k + i) with (k + S i) by lia. exact (H (S i) x Hx).
Qed.
Lemma sumi_pos f l : forall k, 0 < sumi f k l -> exists i x, nth_error l i = Some x /\ 0 < f (k + i) x.
Proof.
  induction l as [|a l IH]; intros k H; cbn in H; [lia|]. destruct (f k a) as [|m] eqn:E.
  - destruct (IH (S k) H) as (i & x & Hx & Hp). exists (S i), x. split; [exact Hx|]. replace (k + S i) with (S k + i) by lia. exact Hp.
  - exists 0, a. split; [reflexivity|]. rewrite Nat.add_0_r, E. lia.
Qed.
End ModLemmas.

Notation res := (resolves NO_STATE).

Lemma res_mono h e i o : res h i o -> res (e :: h) i o.
Proof.
  induction 1; [apply R_set|eapply R_outer_failed|eapply R_inner_invalid|eapply R_inner]; try (right; eassumption); eauto.
Qed.

(** ** Static facts: types and events *)
Definition sd_ok (x : st) : Prop := src x = Deferred -> (started x = true <-> out x <> None).
Record sta (s : sys) : Prop := {
  a_src : forall i x, nth_error (sts s) i = Some x ->
    match src x with
    | Prom => In (ENew i (ty x) false) (hist s)
    | Deferred => In (ENew i (ty x) true) (hist s)
    | Unwrapped w => In (EUnwrap w i) (hist s) /\ exists y, nth_error (sts s) w = Some y /\ ty y = S (ty x)
    end;
  a_new : forall i n d, In (ENew i n d) (hist s) -> exists x, nth_error (sts s) i = Some x /\ src x = if d then Deferred else Prom;
  a_unw : forall w u, In (EUnwrap w u) (hist s) -> exists x, nth_error (sts s) u = Some x /\ src x = Unwrapped w;
  a_set : forall i o, In (ESet i o) (hist s) -> exists x, nth_error (sts s) i = Some x /\ (src x = Prom \/ src x = Deferred) /\ out x <> None;
  a_uniq : forall i o o', In (ESet i o) (hist s) -> In (ESet i o') (hist s) -> o = o';
  a_out : forall i x, nth_error (sts s) i = Some x -> match out x with
    | Some o => (o = Taken \/ has_type (sts s) (ty x) o = true) /\ (o <> Taken -> res (hist s) i o) /\ exists o', res (hist s) i o'
    | None => True end;
  a_inner : forall u x j, nth_error (sts s) u = Some x -> inner x = Some j ->
    exists w y, src x = Unwrapped w /\ res (hist s) w (Fut (Some j)) /\ nth_error (sts s) j = Some y /\ ty y = ty x;
  a_def : forall i x, nth_error (sts s) i = Some x -> sd_ok x }.

Ltac ev := match goal with H : In _ (_ :: _) |- _ => destruct H as [H|H]; [try discriminate H|] end.

(** ** References to futures *)
Definition b2n (b : bool) : nat := if b then 1 else 0.
Definition is_fut (o : option outcome) (j : nat) : nat := match o with Some (Fut (Some j')) => b2n (j' =? j) | _ => 0 end.
Definition is_src (o : source) (j : nat) : nat := match o with Unwrapped j' => b2n (j' =? j) | _ => 0 end.
Definition is_in (o : option nat) (j : nat) : nat := match o with Some j' => b2n (j' =? j) | _ => 0 end.
Definition ref1 (j i : nat) (x : st) : nat := b2n ((i =? j) && user x) + is_src (src x) j + is_in (inner x) j + is_fut (out x) j.
Definition refs (l : list st) (j : nat) : nat := sumi (ref1 j) 0 l.

Lemma refs_user l i x b j : nth_error l i = Some x -> refs (modify l i (set_user b)) j + b2n ((i =? j) && user x) = refs l j + b2n ((i =? j) && b).
Proof. intros H. unfold refs. pose proof (@sumi_modify _ (ref1 j) l (set_user b) i 0 x H) as E. unfold ref1 at 2 4 in E. cbn in E. lia. Qed.
Lemma refs_out l i x o j : nth_error l i = Some x -> refs (modify l i (set_out o)) j + is_fut (out x) j = refs l j + is_fut (Some o) j.
Proof. intros H. unfold refs. pose proof (@sumi_modify _ (ref1 j) l (set_out o) i 0 x H) as E. unfold ref1 at 2 4 in E. cbn [plus src out inner user set_out] in E. lia. Qed.
Lemma refs_inner l i x k j : nth_error l i = Some x -> refs (modify l i (set_inner k)) j + is_in (inner x) j = refs l j + b2n (k =? j).
Proof. intros H. unfold refs. pose proof (@sumi_modify _ (ref1 j) l (set_inner k) i 0 x H) as E. unfold ref1 at 2 4 in E. cbn in E. lia. Qed.
Lemma refs_same l i g j : (forall x, user (g x) = user x /\ src (g x) = src x /\ inner (g x) = inner x /\ out (g x) = out x) -> refs (modify l i g) j = refs l j.
Proof.
  intros Hg. destruct (nth_error l i) as [x|] eqn:E.
  - unfold refs. pose proof (@sumi_modify _ (ref1 j) l g i 0 x E) as F. unfold ref1 at 2 4 in F. destruct (Hg x) as (E1 & E2 & E3 & E4). rewrite E1, E2, E3, E4 in F. lia.
  - f_equal. clear -E. revert i E. induction l as [|a l IH]; intros [|i] E; cbn in *; try discriminate; auto. f_equal; auto.
Qed.
Lemma refs_app l x j : refs (l ++ [x]) j = refs l j + ref1 j (length l) x.
Proof. unfold refs. rewrite sumi_app. cbn. lia. Qed.
Lemma modify_modify (A : Type) (l : list A) i f g : modify (modify l i f) i g = modify l i (fun x => g (f x)).
Proof. revert i; induction l; destruct i; cbn; f_equal; auto. Qed.
Lemma refs_finish l i o j : forall x, nth_error l i = Some x -> refs (fst (finish l i o)) j + is_fut (out x) j = refs l j + is_fut (Some o) j.
Proof.
  intros x H. unfold finish. rewrite H. cbn [fst]. rewrite <- (modify_modify l i (set_out o) (set_conts [])). rewrite refs_same by (intros; auto). apply refs_out. exact H.
Qed.
Lemma refs_attach l u i j : refs (fst (attach l u i)) j = refs l j.
Proof. unfold attach. destruct (nth_error l i) as [y|] eqn:E; [|reflexivity]. destruct (out y); cbn; apply refs_same; auto. Qed.

(** ** Lookups *)
Lemma nth_finish l i o k : nth_error (fst (finish l i o)) k = if k =? i then option_map (fun y => set_conts [] (set_out o y)) (nth_error l k) else nth_error l k.
Proof.
  unfold finish. destruct (nth_error l i) as [y|] eqn:E; cbn; [apply nth_modify|]. destruct (k =? i) eqn:Ek; [|reflexivity].
  apply Nat.eqb_eq in Ek. subst. rewrite E. reflexivity.
Qed.
Definition attached (u : nat) (y : st) : st := set_conts (match out y with Some _ => [] | None => conts y ++ [u] end) y.
Lemma nth_attach l u j k : nth_error (fst (attach l u j)) k = if k =? j then option_map (attached u) (nth_error l k) else nth_error l k.
Proof.
  unfold attach. destruct (nth_error l j) as [y|] eqn:E.
  - assert (G : forall g, nth_error (modify l j g) k = if k =? j then option_map g (nth_error l k) else nth_error l k) by (intros; apply nth_modify).
    unfold attached. destruct (out y) as [o|] eqn:Eo; cbn; rewrite G; destruct (k =? j) eqn:Ek; auto; apply Nat.eqb_eq in Ek; subst; rewrite E; cbn; rewrite Eo; reflexivity.
  - destruct (k =? j) eqn:Ek; [|reflexivity]. apply Nat.eqb_eq in Ek. subst. cbn. rewrite E. reflexivity.
Qed.
Lemma nth_give b o l k : nth_error (give b o l) k = match o with Fut (Some j) => if k =? j then option_map (set_user b) (nth_error l k) else nth_error l k | _ => nth_error l k end.
Proof. destruct o as [| |[j|]|]; cbn; auto. apply nth_modify. Qed.

Lemma finish_conts l i o y : nth_error l i = Some y -> snd (finish l i o) = map FLaunch (conts y).
Proof. unfold finish. now intros ->. Qed.

(** ** Preservation of the static facts *)
Definition out_ok (s : sys) (k : nat) (x : st) : Prop :=
  exists o, out x = Some o /\ (o = Taken \/ has_type (sts s) (ty x) o = true) /\ (o <> Taken -> res (hist s) k o) /\ exists o', res (hist s) k o'.
Definition in_ok (s : sys) (x : st) : Prop :=
  forall j, inner x = Some j -> exists w y, src x = Unwrapped w /\ res (hist s) w (Fut (Some j)) /\ nth_error (sts s) j = Some y /\ ty y = ty x.
Definition src_ok (s : sys) (k : nat) (x : st) : Prop :=
    match src x with
    | Prom => In (ENew k (ty x) false) (hist s)
    | Deferred => In (ENew k (ty x) true) (hist s)
    | Unwrapped w => In (EUnwrap w k) (hist s) /\ exists y, nth_error (sts s) w = Some y /\ ty y = S (ty x)
    end.
Definition ev_ok (s s' : sys) (e : event) : Prop :=
  match e with
  | ENew i n d => exists x, nth_error (sts s') i = Some x /\ src x = if d then Deferred else Prom
  | EUnwrap w u => exists x, nth_error (sts s') u = Some x /\ src x = Unwrapped w
  | ESet i o => (exists x, nth_error (sts s') i = Some x /\ (src x = Prom \/ src x = Deferred) /\ out x <> None) /\ (exists x, nth_error (sts s) i = Some x /\ out x = None)
  | _ => True
  end.
Definition ext (l l' : list st) : Prop := forall j y, nth_error l j = Some y ->
  exists y', nth_error l' j = Some y' /\ ty y' = ty y /\ src y' = src y /\ (out y <> None -> out y' <> None).
Lemma has_type_ext l l' n o : ext l l' -> has_type l n o = true -> has_type l' n o = true.
Proof.
  intros He. destruct o as [| |[j|]|]; cbn; auto. destruct n; auto. destruct (nth_error l j) as [y|] eqn:E; [|discriminate].
  destruct (He _ _ E) as (y' & -> & -> & _). auto.
Qed.
Lemma res_app es h i o : res h i o -> res (es ++ h) i o.
Proof. induction es; cbn; auto. intros. apply res_mono; auto. Qed.

Lemma sta_pres s s' es : sta s -> ext (sts s) (sts s') -> hist s' = es ++ hist s -> length es <= 1 ->
  (forall e, In e es -> ev_ok s s' e) ->
  (forall k x', nth_error (sts s') k = Some x' ->
     (exists x, nth_error (sts s) k = Some x /\ src x' = src x /\ ty x' = ty x /\ (out x' = out x \/ out_ok s' k x') /\
       (inner x' = inner x \/ in_ok s' x') /\ (sd_ok x -> sd_ok x')) \/
     (src_ok s' k x' /\ out x' = None /\ inner x' = None /\ started x' = false)) ->
  sta s'.
Proof.
  intros HI He Hh Hl Hev Hk. constructor.
  - intros i x' Hx'. destruct (Hk _ _ Hx') as [(x & Hx & Es & Et & _)|(H & _)]; [|exact H].
    pose proof (a_src HI _ Hx) as A. rewrite Es, Et, Hh. destruct (src x) as [| |w]; try (apply in_or_app; right; exact A).
    destruct A as (A & y & Hy & Ey). split; [apply in_or_app; auto|]. destruct (He _ _ Hy) as (y' & Hy' & Ety & _). exists y'. split; [auto|congruence].
  - intros i n d H. rewrite Hh in H. apply in_app_or in H. destruct H as [H|H]; [exact (Hev _ H)|].
    destruct (a_new HI _ _ _ H) as (x & Hx & Ex). destruct (He _ _ Hx) as (y' & Hy' & _ & Es & _). exists y'. split; [auto|congruence].
  - intros w u H. rewrite Hh in H. apply in_app_or in H. destruct H as [H|H]; [exact (Hev _ H)|].
    destruct (a_unw HI _ _ H) as (x & Hx & Ex). destruct (He _ _ Hx) as (y' & Hy' & _ & Es & _). exists y'. split; [auto|congruence].
  - intros i o H. rewrite Hh in H. apply in_app_or in H. destruct H as [H|H]; [exact (proj1 (Hev _ H))|].
    destruct (a_set HI _ _ H) as (x & Hx & Ex & Eo). destruct (He _ _ Hx) as (y' & Hy' & _ & Es & Eo'). exists y'. split; [auto|]. split; [rewrite Es; auto|auto].
  - intros i o o' H H'. rewrite Hh in H, H'. apply in_app_or in H. apply in_app_or in H'.
    assert (X : forall o1 o2, In (ESet i o1) es -> In (ESet i o2) (hist s) -> False).
    { intros o1 o2 H1 H2. destruct (proj2 (Hev _ H1)) as (x & Hx & Eo). destruct (a_set HI _ _ H2) as (x2 & Hx2 & _ & Eo2). congruence. }
    destruct H as [H|H], H' as [H'|H'].
    + destruct es as [|e [|e2 es]]; [destruct H| |cbn in Hl; lia]. destruct H as [H|[]], H' as [H'|[]]. congruence.
    + exfalso; eauto.
    + exfalso; eauto.
    + eapply (a_uniq HI); eauto.
  - intros i x' Hx'. destruct (Hk _ _ Hx') as [(x & Hx & Es & Et & Eo & _)|(_ & -> & _)]; [|exact I].
    destruct Eo as [Eo|(o & -> & A)]; [|exact A]. rewrite Eo. pose proof (a_out HI _ Hx) as A. destruct (out x) as [o|]; [|exact I].
    destruct A as (A1 & A2 & o' & A3). split; [|split].
    + destruct A1 as [A1|A1]; [auto|right]. rewrite Et. eapply has_type_ext; eauto.
    + intros Ho. rewrite Hh. apply res_app; auto.
    + exists o'. rewrite Hh. apply res_app; auto.
  - intros u x' j Hx' Ej. destruct (Hk _ _ Hx') as [(x & Hx & Es & Et & _ & Ei & _)|(_ & _ & E & _)]; [|congruence].
    destruct Ei as [Ei|Ei]; [|exact (Ei _ Ej)]. rewrite Ei in Ej. destruct (a_inner HI _ Hx Ej) as (w & y & A1 & A2 & A3 & A4).
    destruct (He _ _ A3) as (y' & Hy' & Ety & _). exists w, y'. repeat split; [congruence| |exact Hy'|congruence]. rewrite Hh. apply res_app; auto.
  - intros i x' Hx'. destruct (Hk _ _ Hx') as [(x & Hx & _ & _ & _ & _ & A)|(_ & E & _ & E')].
    + exact (A (a_def HI _ Hx)).
    + intros _. rewrite E, E'. split; [discriminate|congruence].
Qed.

(** ** Counting *)
Fixpoint cnt (u : nat) (l : list nat) : nat := match l with [] => 0 | v :: l' => b2n (v =? u) + cnt u l' end.
Lemma cnt_app u l l' : cnt u (l ++ l') = cnt u l + cnt u l'.
Proof. induction l; cbn; lia. Qed.
Lemma cnt_in u l : In u l -> 1 <= cnt u l.
Proof. induction l; cbn; [tauto|]. intros [->|H]; [rewrite Nat.eqb_refl; cbn; lia|]. specialize (IHl H). lia. Qed.
Lemma in_cnt u l : 0 < cnt u l -> In u l.
Proof. induction l as [|v l IH]; cbn; [lia|]. destruct (v =? u) eqn:E; [apply Nat.eqb_eq in E; auto|cbn; auto]. Qed.
Definition fu (f : frame) : nat := match f with FLaunch u | FAttach u _ => u end.
Definition fcnt (u : nat) (l : list frame) : nat := cnt u (map fu l).
Lemma fcnt_app u l l' : fcnt u (l ++ l') = fcnt u l + fcnt u l'.
Proof. unfold fcnt. rewrite map_app. apply cnt_app. Qed.
Lemma fcnt_launch u l : fcnt u (map FLaunch l) = cnt u l.
Proof. unfold fcnt. rewrite map_map. cbn. now rewrite map_id. Qed.
Lemma fcnt_in u f l : In f l -> fu f = u -> 1 <= fcnt u l.
Proof. intros H <-. apply cnt_in. apply in_map. exact H. Qed.
Definition cs (l : list st) (u : nat) : nat := sumi (fun _ y => cnt u (conts y)) 0 l.
Definition ft (ts : list thr) (u : nat) : nat := sumi (fun _ z => fcnt u (fs z)) 0 ts.
Lemma cs_same l i g u : (forall x, conts (g x) = conts x) -> cs (modify l i g) u = cs l u.
Proof.
  intros Hg. destruct (nth_error l i) as [x|] eqn:E.
  - unfold cs. pose proof (@sumi_modify _ (fun _ y => cnt u (conts y)) l g i 0 x E) as F. cbn in F. rewrite Hg in F. lia.
  - f_equal. clear -E. revert i E. induction l as [|a l IH]; intros [|i] E; cbn in *; try discriminate; auto. f_equal; auto.
Qed.
Lemma cs_give b o l u : cs (give b o l) u = cs l u.
Proof. destruct o as [| |[j|]|]; cbn; auto. apply cs_same; auto. Qed.
Lemma cs_finish l i o u : cs (fst (finish l i o)) u + fcnt u (snd (finish l i o)) = cs l u.
Proof.
  unfold finish. destruct (nth_error l i) as [y|] eqn:E; cbn [fst snd]; [|cbn; lia].
  unfold cs. pose proof (@sumi_modify _ (fun _ y => cnt u (conts y)) l (fun z => set_conts [] (set_out o z)) i 0 y E) as F. cbn in F. rewrite fcnt_launch. lia.
Qed.
Lemma cs_attach l v j u y : nth_error l j = Some y -> cs (fst (attach l v j)) u + fcnt u (snd (attach l v j)) = cs l u + b2n (v =? u).
Proof.
  intros E. unfold attach. rewrite E. destruct (out y) eqn:Eo; cbn [fst snd].
  - unfold cs. pose proof (@sumi_modify _ (fun _ y => cnt u (conts y)) l (set_conts []) j 0 y E) as F. cbn in F. rewrite fcnt_launch, cnt_app. cbn. lia.
  - unfold cs. pose proof (@sumi_modify _ (fun _ y => cnt u (conts y)) l (set_conts (conts y ++ [v])) j 0 y E) as F. cbn in F. rewrite cnt_app in F. cbn in *. lia.
Qed.
Lemma ft_upd ts t z z' u : nth_error ts t = Some z -> ft (upd_thr ts t z') u + fcnt u (fs z) = ft ts u + fcnt u (fs z').
Proof. intros E. unfold ft, upd_thr. exact (@sumi_modify _ (fun _ z => fcnt u (fs z)) ts (fun _ => z') t 0 z E). Qed.

Definition want1 (x : st) : nat := match src x, out x with Unwrapped _, None => 1 | _, _ => 0 end.
Definition want (l : list st) (u : nat) : nat := match nth_error l u with Some x => want1 x | None => 0 end.

Definition linked (x : st) (j : nat) : Prop := (src x = Unwrapped j /\ inner x = None) \/ inner x = Some j.
Definition frames (ts : list thr) (f : frame) : Prop := exists t z, nth_error ts t = Some z /\ In f (fs z).
Definition launchable (l : list st) (u : nat) : Prop :=
  exists x j y o, nth_error l u = Some x /\ linked x j /\ nth_error l j = Some y /\ out y = Some o /\ o <> Taken.

Record inv (s : sys) : Prop := {
  i_sta : sta s;
  i_ref : forall j, refs (sts s) j <= 1;
  i_cnt : forall u, cs (sts s) u + ft (thrs s) u = want (sts s) u;
  i_conts : forall j y u, nth_error (sts s) j = Some y -> In u (conts y) -> out y = None /\ exists x, nth_error (sts s) u = Some x /\ linked x j;
  i_launch : forall u, frames (thrs s) (FLaunch u) -> launchable (sts s) u;
  i_attach : forall u j, frames (thrs s) (FAttach u j) -> exists x, nth_error (sts s) u = Some x /\ inner x = Some j;
  i_fresh : forall j y, nth_error (sts s) j = Some y -> out y = Some Taken ->
    user y = false /\ forall i x, nth_error (sts s) i = Some x -> out x <> Some (Fut (Some j)) /\ (inner x = Some j -> out x <> None);
  i_wt : forall t z i, nth_error (thrs s) t = Some z -> wt z = Some i -> exists x, nth_error (sts s) i = Some x /\ user x = true }.

Lemma want_le l u : want l u <= 1.
Proof. unfold want, want1. destruct (nth_error l u) as [x|]; [|lia]. destruct (src x); try lia. destruct (out x); lia. Qed.

(** the frame that a thread works on is the only place for its state *)
Lemma only_here s t z f fr : inv s -> nth_error (thrs s) t = Some z -> fs z = f :: fr ->
  want (sts s) (fu f) = 1 /\ (forall j y, nth_error (sts s) j = Some y -> ~ In (fu f) (conts y)) /\
  (forall g w es, frames (upd_thr (thrs s) t (Thr (es ++ fr) w)) g -> In g es \/ (frames (thrs s) g /\ fu g <> fu f)).
Proof.
  intros HI Hz Ef. pose proof (i_cnt HI (fu f)) as Hc. pose proof (want_le (sts s) (fu f)) as Hw.
  assert (Hf : fcnt (fu f) (fs z) = S (fcnt (fu f) fr)) by (rewrite Ef; unfold fcnt; cbn; rewrite Nat.eqb_refl; reflexivity).
  pose proof (@sumi_ge _ (fun _ z => fcnt (fu f) (fs z)) (thrs s) t 0 z Hz) as Hg. cbn beta in Hg. fold (ft (thrs s) (fu f)) in Hg.
  split; [lia|]. split.
  - intros j y Hy Hin. pose proof (@sumi_ge _ (fun _ y => cnt (fu f) (conts y)) (sts s) j 0 y Hy) as Hg2. cbn beta in Hg2. fold (cs (sts s) (fu f)) in Hg2. apply cnt_in in Hin. lia.
  - intros g w es (t' & z' & Hz' & Hin). unfold upd_thr in Hz'. rewrite nth_modify in Hz'. destruct (t' =? t) eqn:Et.
    + apply Nat.eqb_eq in Et. subst t'. rewrite Hz in Hz'. cbn in Hz'. injection Hz' as <-. cbn in Hin. apply in_app_or in Hin. destruct Hin as [Hin|Hin]; [auto|right].
      split; [exists t, z; split; [auto|rewrite Ef; right; auto]|]. intros E. pose proof (@fcnt_in _ _ _ Hin E). lia.
    + right. split; [exists t', z'; auto|]. intros E. apply Nat.eqb_neq in Et.
      pose proof (@sumi_ge2 _ (fun _ z => fcnt (fu f) (fs z)) (thrs s) t t' 0 z z' (fun H => Et (eq_sym H)) Hz Hz') as Hg2. cbn beta in Hg2. fold (ft (thrs s) (fu f)) in Hg2.
      pose proof (@fcnt_in _ _ _ Hin E). lia.
Qed.
(** a thread without frames *)
Lemma frames_upd s t z w es g : nth_error (thrs s) t = Some z -> fs z = [] -> frames (upd_thr (thrs s) t (Thr es w)) g -> In g es \/ frames (thrs s) g.
Proof.
  intros Hz Ef (t' & z' & Hz' & Hin). unfold upd_thr in Hz'. rewrite nth_modify in Hz'. destruct (t' =? t) eqn:Et.
  - apply Nat.eqb_eq in Et. subst t'. rewrite Hz in Hz'. cbn in Hz'. injection Hz' as <-. cbn in Hin. auto.
  - right. exists t', z'. auto.
Qed.
(** references are unique *)
Lemma ref_linked x j i : linked x j -> 1 <= is_src (src x) j + is_in (inner x) j + i.
Proof. intros [(-> & ->)| ->]; cbn; rewrite Nat.eqb_refl; cbn; lia. Qed.
Lemma linked_uniq s u u' x x' j : inv s -> nth_error (sts s) u = Some x -> nth_error (sts s) u' = Some x' -> linked x j -> linked x' j -> u = u'.
Proof.
  intros HI H H' L L'. destruct (Nat.eq_dec u u') as [|Hn]; [auto|exfalso]. pose proof (i_ref HI j) as Hr. unfold refs in Hr.
  pose proof (@sumi_ge2 _ (ref1 j) (sts s) u u' 0 x x' Hn H H') as G. unfold ref1 at 1 2 in G.
  pose proof (@ref_linked x j 0 L). pose proof (@ref_linked x' j 0 L'). lia.
Qed.
Lemma linked_user s u x j y : inv s -> nth_error (sts s) u = Some x -> linked x j -> nth_error (sts s) j = Some y -> user y = false.
Proof.
  intros HI H L Hy. destruct (user y) eqn:Eu; [exfalso|reflexivity]. pose proof (i_ref HI j) as Hr. unfold refs in Hr. pose proof (@ref_linked x j 0 L) as L1.
  destruct (Nat.eq_dec u j) as [->|Hn].
  - rewrite H in Hy. injection Hy as ->. pose proof (@sumi_ge _ (ref1 j) (sts s) j 0 y H) as G. unfold ref1 at 1 in G. cbn [plus] in G. rewrite Nat.eqb_refl, Eu in G. cbn [andb b2n] in G. lia.
  - pose proof (@sumi_ge2 _ (ref1 j) (sts s) u j 0 x y Hn H Hy) as G. unfold ref1 at 1 2 in G. cbn [plus] in G. rewrite Nat.eqb_refl, Eu in G. cbn [andb b2n] in G. lia.
Qed.

Lemma ref_uniq s k k' z z' j : inv s -> nth_error (sts s) k = Some z -> nth_error (sts s) k' = Some z' -> 1 <= ref1 j k z -> 1 <= ref1 j k' z' -> k = k' /\ ref1 j k z = 1.
Proof.
  intros HI H H' L L'. pose proof (i_ref HI j) as Hr. unfold refs in Hr. pose proof (@sumi_ge _ (ref1 j) (sts s) k 0 z H) as G0. cbn [plus] in G0.
  split; [|lia]. destruct (Nat.eq_dec k k') as [|Hn]; [auto|exfalso].
  pose proof (@sumi_ge2 _ (ref1 j) (sts s) k k' 0 z z' Hn H H') as G. cbn [plus] in G. lia.
Qed.
Lemma ref_user j z : user z = true -> 1 <= ref1 j j z.
Proof. intros E. unfold ref1. rewrite Nat.eqb_refl, E. cbn. lia. Qed.
Lemma ref_fut j k z : out z = Some (Fut (Some j)) -> 1 <= ref1 j k z.
Proof. intros E. unfold ref1. rewrite E. cbn. rewrite Nat.eqb_refl. cbn. lia. Qed.
Lemma ref_in j k z : inner z = Some j -> 1 <= ref1 j k z.
Proof. intros E. unfold ref1. rewrite E. cbn. rewrite Nat.eqb_refl. cbn. lia. Qed.
Lemma ref_lnk j k z : linked z j -> 1 <= ref1 j k z.
Proof. intros L. unfold ref1. pose proof (@ref_linked z j 0 L). lia. Qed.
