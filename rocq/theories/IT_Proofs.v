From Verif Require Export IT_Spec.
Set Implicit Arguments.

Lemma lock_eqb_spec a b : lock_eqb a b = true <-> a = b.
Proof. destruct a, b; simpl; rewrite ?Nat.eqb_eq; split; intros H; try discriminate; congruence. Qed.
Lemma set_own_same o l v : set_own o l v l = v.
Proof. unfold set_own. now rewrite (proj2 (lock_eqb_spec l l) eq_refl). Qed.
Lemma set_own_other o l v l' : l <> l' -> set_own o l v l' = o l'.
Proof. unfold set_own. destruct (lock_eqb l l') eqn:E; [apply lock_eqb_spec in E; congruence|reflexivity]. Qed.
Lemma set_thr_same l i x y : nth_error l i = Some y -> nth_error (set_thr l i x) i = Some x.
Proof. revert i. induction l as [|z l IH]; intros [|i]; simpl; auto; discriminate. Qed.
Lemma set_thr_other l i j x : i <> j -> nth_error (set_thr l i x) j = nth_error l j.
Proof. revert i j. induction l as [|z l IH]; intros [|i] [|j]; simpl; auto; congruence. Qed.
Lemma set_nat_same A (f : nat -> A) t v : set_nat f t v t = v.
Proof. unfold set_nat. now rewrite Nat.eqb_refl. Qed.
Lemma set_nat_other A (f : nat -> A) t v t' : t <> t' -> set_nat f t v t' = f t'.
Proof. unfold set_nat. intros H. apply Nat.eqb_neq in H. now rewrite H. Qed.

(** ** What a thread holds *)
Definition hD (me : nat) (p : pc) : option nat :=
  match p with
  | PWaitChk _ | PWaitI _ true | PWaitUD _ | PWaitClr2 _ | PPointChk => Some me
  | PIntrSet t | PIntrI t _ | PIntrB t _ | PIntrUI t _ | PIntrUD t => Some t
  | _ => None
  end.
Definition hI (p : pc) : option nat :=
  match p with
  | PWaitUD c | PWaitUU c _ | PWaitGo c _ | PWaitUI c _ | PIntrB _ c | PIntrUI _ c | PNotB c _ | PNotUI c => Some c
  | _ => None
  end.
Definition holds (me : nat) (p : pc) (l : lock) : Prop :=
  match l with D d => hD me p = Some d | I c => hI p = Some c | U _ => False end.

(** the condition variable a thread is registered with *)
Definition incur (p : pc) : option nat :=
  match p with
  | PWaitI c true | PWaitUD c | PWaitUU c true | PWaitGo c true | PSleep c true | PWoken c true | PWaitUI c true | PWaitClr c | PWaitClr2 c => Some c
  | _ => None
  end.
(** between the check for a request and the sleep, without the data mutex *)
Definition exposed (p : pc) : option nat :=
  match p with PWaitUU c true | PWaitGo c true | PSleep c true => Some c | _ => None end.
Definition checked (p : pc) : bool := match p with PWaitI _ true | PWaitUD _ => true | _ => false end.
Definition needs_en (p : pc) : bool := match p with PWaitD _ | PWaitChk _ | PPointD | PPointChk => true | _ => false end.

Record Inv (s : sys) : Prop := {
  i_holds : forall t x l, nth_error (thrs s) t = Some x -> holds t (t_pc x) l -> own s l = Some t;
  i_own : forall t l, own s l = Some t -> match l with U _ => True | _ => exists x, nth_error (thrs s) t = Some x /\ holds t (t_pc x) l end;
  i_cur : forall t x, nth_error (thrs s) t = Some x -> cur s t = incur (t_pc x);
  i_chk : forall t x, nth_error (thrs s) t = Some x -> checked (t_pc x) = true -> req s t = false;
  i_exp : forall t x c, nth_error (thrs s) t = Some x -> exposed (t_pc x) = Some c -> req s t = true ->
            exists u y, nth_error (thrs s) u = Some y /\ (t_pc y = PIntrI t c \/ t_pc y = PIntrB t c);
  i_en : forall t x, nth_error (thrs s) t = Some x -> needs_en (t_pc x) = true -> t_en x = true;
  i_req : forall t, req s t = pending t (hist s);
  i_del : forall t, delivered_ok t (hist s) }.

Arguments i_holds {s} _ {t x} l _ _.
Arguments i_own {s} _ {t} l _.
Arguments i_cur {s} _ {t x} _.
Arguments i_chk {s} _ {t x} _ _.
Arguments i_exp {s} _ {t x} c _ _ _.
Arguments i_en {s} _ {t x} _ _.

(** ** What an effect does to the other threads *)
Definition same_or_woken (a : act) (y y' : thr) : Prop :=
  y' = y \/ exists c int, (a = ABroadcast c \/ a = ASignal c) /\ t_pc y = PSleep c int /\ y' = MkThr (PWoken c int) (t_en y) (t_scopes y).

Lemma wake_all_spec c y : wake_all c y = y \/ exists int, t_pc y = PSleep c int /\ wake_all c y = MkThr (PWoken c int) (t_en y) (t_scopes y).
Proof.
  unfold wake_all. destruct (t_pc y) eqn:E; auto. destruct (Nat.eqb_spec c c0) as [<-|]; auto. right. exists int. auto.
Qed.

Lemma effect_threads me a o l o' l' : effect me a o l o' l' ->
  forall j, (nth_error l j = None /\ nth_error l' j = None) \/
            exists y y', nth_error l j = Some y /\ nth_error l' j = Some y' /\ same_or_woken a y y'.
Proof.
  intros H j.
  assert (Hid : (nth_error l j = None /\ nth_error l j = None) \/
            exists y y', nth_error l j = Some y /\ nth_error l j = Some y' /\ same_or_woken a y y').
  { destruct (nth_error l j) as [y|]; [right; exists y, y; unfold same_or_woken; auto|auto]. }
  destruct H as [o l|o l k Hk|o l k|o l c|o l c|o l c i x Hi Hs|o l c Hn]; auto.
  - rewrite nth_error_map. destruct (nth_error l j) as [y|]; [right|auto]. exists y, (wake_all c y). split; [auto|]. split; [auto|].
    destruct (wake_all_spec c y) as [->|(int & E & ->)]; [left; auto|right]. exists c, int. auto.
  - destruct (Nat.eq_dec i j) as [<-|Hne].
    + right. exists x, (wake_all c x). split; [auto|]. split; [eapply set_thr_same; eauto|].
      destruct (wake_all_spec c x) as [->|(int & E & ->)]; [left; auto|right]. exists c, int. auto.
    + rewrite set_thr_other by auto. exact Hid.
Qed.
Arguments effect_threads {me a o l o' l'} _ j.

Lemma effect_broadcast_wakes me c o l o' l' j y' int : effect me (ABroadcast c) o l o' l' -> nth_error l' j = Some y' -> t_pc y' <> PSleep c int.
Proof.
  intros H Hj E. inversion H; subst. rewrite nth_error_map in Hj. destruct (nth_error l j) as [y|]; [|discriminate]. injection Hj as <-.
  unfold wake_all in E. destruct (t_pc y) eqn:Ey; try congruence. destruct (Nat.eqb_spec c c0) as [<-|Hne]; [discriminate|]. congruence.
Qed.

(** ** The table of moves *)
Lemma next_locks s me x m : next s me x = Some m ->
  match m_act m with
  | ANone | ABroadcast _ | ASignal _ | AAcq (U _) | ARel (U _) => hD me (m_pc m) = hD me (t_pc x) /\ hI (m_pc m) = hI (t_pc x)
  | AAcq (D d) => hD me (t_pc x) = None /\ hD me (m_pc m) = Some d /\ hI (m_pc m) = hI (t_pc x)
  | AAcq (I c) => hI (t_pc x) = None /\ hI (m_pc m) = Some c /\ hD me (m_pc m) = hD me (t_pc x)
  | ARel (D d) => hD me (t_pc x) = Some d /\ hD me (m_pc m) = None /\ hI (m_pc m) = hI (t_pc x)
  | ARel (I c) | ASleep c => hI (t_pc x) = Some c /\ hI (m_pc m) = None /\ hD me (m_pc m) = hD me (t_pc x)
  end.
Proof.
  unfold next, go. destruct (t_pc x) eqn:E; try discriminate; try (destruct int); try (destruct all);
    try (destruct (t_en x)); try (destruct (req s me)); try (destruct (cur s t)); intros [= <-]; simpl; auto.
Qed.

Lemma woken_holds a y y' t l : same_or_woken a y y' -> (holds t (t_pc y') l <-> holds t (t_pc y) l).
Proof.
  intros [->|(c & int & _ & E & ->)]; [tauto|]. simpl. rewrite E. destruct l; simpl; tauto.
Qed.
Arguments woken_holds {a y y'} t l _.

Lemma effect_own me a o l o' l' : effect me a o l o' l' ->
  match a with
  | AAcq k => o k = None /\ o' = set_own o k (Some me)
  | ARel k => o' = set_own o k None
  | ASleep c => o' = set_own o (I c) None
  | _ => o' = o
  end.
Proof. intros H; destruct H; auto. Qed.
Arguments effect_own {me a o l o' l'} _.

Definition acq_of (a : act) := match a with AAcq k => Some k | _ => None end.
Definition rel_of (a : act) := match a with ARel k => Some k | ASleep c => Some (I c) | _ => None end.

Lemma next_holds s me x m l : next s me x = Some m ->
  (holds me (m_pc m) l -> (acq_of (m_act m) = Some l \/ holds me (t_pc x) l) /\ rel_of (m_act m) <> Some l) /\
  (holds me (t_pc x) l -> acq_of (m_act m) <> Some l /\ (rel_of (m_act m) = Some l \/ holds me (m_pc m) l)) /\
  (match l with U _ => True | _ => rel_of (m_act m) = Some l -> holds me (t_pc x) l end) /\
  (match l with U _ => True | _ => acq_of (m_act m) = Some l -> holds me (m_pc m) l end).
Proof.
  intros Hn. apply next_locks in Hn. destruct (m_act m) as [|[d|c|c]|[d|c|c]|c|c|c]; destruct l as [d'|c'|c']; simpl in *;
    intuition (try congruence); try (left; congruence); try (right; congruence).
  all: match goal with H : hD _ _ = Some ?a, H' : hD _ _ = Some ?b |- _ => assert (a = b) by congruence; subst; auto
                    | H : hI _ = Some ?a, H' : hI _ = Some ?b |- _ => assert (a = b) by congruence; subst; auto
                    | _ => idtac end.
Qed.
Arguments next_holds s me x {m} l _.

Lemma not_sleep_after s me x m a' y' : next s me x = Some m -> a' = m_act m ->
  same_or_woken a' (MkThr (m_pc m) (t_en x) (t_scopes x)) y' -> y' = MkThr (m_pc m) (t_en x) (t_scopes x).
Proof.
  intros Hn -> [->|(c & int & Ha & Hp & _)]; [reflexivity|]. exfalso. simpl in Hp. revert Hn Ha Hp. unfold next, go.
  destruct (t_pc x); try discriminate; try (destruct int0); try (destruct all);
    try (destruct (t_en x)); try (destruct (req s me)); try (destruct (cur s t)); intros [= <-]; simpl; intros [?|?]; try discriminate.
Qed.

Lemma run_threads s t x m o' l' : nth_error (thrs s) t = Some x -> next s t x = Some m ->
  effect t (m_act m) (own s) (set_thr (thrs s) t (MkThr (m_pc m) (t_en x) (t_scopes x))) o' l' ->
  forall j y', nth_error l' j = Some y' ->
    (j = t /\ y' = MkThr (m_pc m) (t_en x) (t_scopes x)) \/
    (j <> t /\ exists y, nth_error (thrs s) j = Some y /\ same_or_woken (m_act m) y y').
Proof.
  intros Hx Hn He j y' Hj. destruct (effect_threads He j) as [[_ E]|(y & y1 & Hy & Hy1 & Hw)]; [congruence|].
  rewrite Hj in Hy1. injection Hy1 as <-. destruct (Nat.eq_dec j t) as [->|Hne].
  - left. split; [reflexivity|]. rewrite (set_thr_same _ _ _ Hx) in Hy. injection Hy as <-. eapply not_sleep_after; eauto.
  - right. split; [exact Hne|]. rewrite set_thr_other in Hy by auto. eauto.
Qed.
Arguments run_threads {s t x m o' l'} _ _ _ j y' _.
Lemma run_threads_fwd s t x m o' l' : nth_error (thrs s) t = Some x -> next s t x = Some m ->
  effect t (m_act m) (own s) (set_thr (thrs s) t (MkThr (m_pc m) (t_en x) (t_scopes x))) o' l' ->
  nth_error l' t = Some (MkThr (m_pc m) (t_en x) (t_scopes x)) /\
  forall j y, j <> t -> nth_error (thrs s) j = Some y -> exists y', nth_error l' j = Some y' /\ same_or_woken (m_act m) y y'.
Proof.
  intros Hx Hn He. split.
  - destruct (effect_threads He t) as [[E _]|(y & y1 & Hy & Hy1 & Hw)]; rewrite (set_thr_same _ _ _ Hx) in *; [discriminate|].
    injection Hy as <-. rewrite Hy1. f_equal. eapply not_sleep_after; eauto.
  - intros j y Hne Hj. destruct (effect_threads He j) as [[E _]|(y0 & y1 & Hy & Hy1 & Hw)]; rewrite set_thr_other in * by auto; [congruence|].
    rewrite Hj in Hy. injection Hy as <-. eauto.
Qed.
Arguments run_threads_fwd {s t x m o' l'} _ _ _.

Lemma own_keep me a o l o' l' k j : effect me a o l o' l' -> o k = Some j -> rel_of a <> Some k -> o' k = Some j.
Proof.
  intros He Hk Hr. apply effect_own in He. destruct a as [|k'|k'|c|c|c]; simpl in *; subst; auto.
  - destruct He as [Hn ->]. rewrite set_own_other; [exact Hk|]. intros ->. congruence.
  - rewrite set_own_other; [exact Hk|congruence].
  - rewrite set_own_other; [exact Hk|congruence].
Qed.
Lemma own_acq me a o l o' l' k : effect me a o l o' l' -> acq_of a = Some k -> o' k = Some me.
Proof. intros He Ha. apply effect_own in He. destruct a; try discriminate. injection Ha as ->. destruct He as [_ ->]. apply set_own_same. Qed.

Lemma own_run s t x m o' l' : Inv s -> nth_error (thrs s) t = Some x -> next s t x = Some m ->
  effect t (m_act m) (own s) (set_thr (thrs s) t (MkThr (m_pc m) (t_en x) (t_scopes x))) o' l' ->
  (forall j y' l, nth_error l' j = Some y' -> holds j (t_pc y') l -> o' l = Some j) /\
  (forall j l, o' l = Some j -> match l with U _ => True | _ => exists y', nth_error l' j = Some y' /\ holds j (t_pc y') l end).
Proof.
  intros HI Hx Hn He. pose proof (effect_own He) as Ho. destruct (run_threads_fwd Hx Hn He) as [Ht Hf]. split.
  - intros j y' l Hj Hh. destruct (next_holds s t x l Hn) as (N1 & N2 & N3 & N4).
    destruct (run_threads Hx Hn He j y' Hj) as [[-> ->]|(Hne & y & Hy & Hw)].
    + destruct (N1 Hh) as [[Ha|Hb] Hr]; [eapply own_acq; eauto|]. eapply own_keep; [exact He|exact (i_holds HI _ Hx Hb)|exact Hr].
    + apply (woken_holds _ _ Hw) in Hh. pose proof (i_holds HI _ Hy Hh) as Hown. eapply own_keep; [exact He|exact Hown|].
      intros Hr. destruct l as [d|c|c]; [| |contradiction]; pose proof (i_holds HI _ Hx (N3 Hr)); congruence.
  - intros j l Hj. assert (Hold : own s l = Some j -> (j <> t \/ rel_of (m_act m) <> Some l) ->
              match l with U _ => True | _ => exists y', nth_error l' j = Some y' /\ holds j (t_pc y') l end).
    { intros Hown Hor. pose proof (i_own HI _ Hown) as Hex. destruct l as [d|c|c]; auto.
      all: destruct Hex as (y & Hy & Hh); destruct (Nat.eq_dec j t) as [->|Hne];
        [rewrite Hx in Hy; injection Hy as <-; exists (MkThr (m_pc m) (t_en x) (t_scopes x)); split; [exact Ht|]; simpl;
         match type of Hown with own ?s0 ?k = _ => destruct (next_holds s0 _ _ k Hn) as (N1 & N2 & N3 & N4) end;
         destruct (N2 Hh) as [_ [Hr|Hb]]; [destruct Hor; congruence|exact Hb]
        |destruct (Hf j y Hne Hy) as (y' & Hy' & Hw); exists y'; split; [exact Hy'|]; apply (woken_holds _ _ Hw); exact Hh]. }
    destruct (m_act m) as [|k|k|k|k|k] eqn:Em; simpl in Ho.
    + subst o'. apply Hold; auto. right. discriminate.
    + destruct Ho as [Hk ->]. destruct (lock_eqb k l) eqn:E.
      * apply lock_eqb_spec in E. subst k. rewrite set_own_same in Hj. injection Hj as <-.
        destruct l as [d|c|c]; auto.
        all: match type of Hk with own ?s0 ?k = _ => destruct (next_holds s0 _ _ k Hn) as (N1 & N2 & N3 & N4) end;
          eexists; split; [exact Ht|]; simpl; apply N4; rewrite Em; reflexivity.
      * unfold set_own in Hj. rewrite E in Hj. apply Hold; auto. right. discriminate.
    + subst o'. unfold set_own in Hj. destruct (lock_eqb k l) eqn:E; [discriminate|]. apply Hold; auto. right. simpl. intros [= ->].
      rewrite (proj2 (lock_eqb_spec l l) eq_refl) in E. discriminate.
    + subst o'. unfold set_own in Hj. destruct (lock_eqb (I k) l) eqn:E; [discriminate|]. apply Hold; auto. right. simpl. intros [= <-].
      rewrite (proj2 (lock_eqb_spec (I k) (I k)) eq_refl) in E. discriminate.
    + subst o'. apply Hold; auto. right. discriminate.
    + subst o'. apply Hold; auto. right. discriminate.
Qed.
Arguments own_run {s t x m o' l'} _ _ _ _.

(** two threads do not hold the same lock *)
Lemma holds_inj s t u x y l : Inv s -> nth_error (thrs s) t = Some x -> nth_error (thrs s) u = Some y ->
  holds t (t_pc x) l -> holds u (t_pc y) l -> t = u.
Proof. intros HI Hx Hy H1 H2. pose proof (i_holds HI _ Hx H1). pose proof (i_holds HI _ Hy H2). congruence. Qed.
Arguments holds_inj {s t u x y l} _ _ _ _ _.

(** ** the other parts *)
Lemma woken_pred (P : pc -> Prop) a y y' : same_or_woken a y y' -> (forall c int, P (PWoken c int) -> P (PSleep c int)) -> P (t_pc y') -> P (t_pc y).
Proof. intros [->|(c & int & _ & E & ->)] H Hp; [exact Hp|]. rewrite E. apply H. exact Hp. Qed.

Lemma next_cur s t x m : next s t x = Some m -> cur s t = incur (t_pc x) ->
  match m_cur m with Some (t', v) => t' = t /\ v = incur (m_pc m) | None => incur (m_pc m) = incur (t_pc x) end.
Proof.
  unfold next, go. destruct (t_pc x) eqn:E; try discriminate; try (destruct int); try (destruct all);
    try (destruct (t_en x)); try (destruct (req s t)); intros [= <-]; simpl; auto; try (destruct (cur s t0)); auto.
Qed.
Arguments next_cur s t x {m} _ _.

Lemma woken_incur a y y' : same_or_woken a y y' -> incur (t_pc y') = incur (t_pc y).
Proof. intros [->|(c & int & _ & E & ->)]; [reflexivity|]. simpl. rewrite E. destruct int; reflexivity. Qed.
Arguments woken_incur {a y y'} _.

Lemma next_req s t x m : next s t x = Some m ->
  match m_req m with
  | None => (forall v, pending v (m_ev m ++ hist s) = pending v (hist s)) 
  | Some (t', b) => (forall v, pending v (m_ev m ++ hist s) = set_nat (fun v => pending v (hist s)) t' b v) /\
                    (b = true -> hD t (t_pc x) = Some t' /\ t_pc x = PIntrSet t') /\
                    (b = false -> t' = t /\ hD t (t_pc x) = Some t)
  end.
Proof.
  unfold next, go, set_nat. destruct (t_pc x) eqn:E; try discriminate; try (destruct int); try (destruct all);
    try (destruct (t_en x)); try (destruct (req s t)); try (destruct (cur s t0)); intros [= <-]; simpl; auto; repeat split; auto; discriminate.
Qed.
Arguments next_req s t x {m} _.

Lemma next_del s t x m : next s t x = Some m -> (needs_en (t_pc x) = true -> t_en x = true) -> req s t = pending t (hist s) ->
  forall v, delivered_ok v (hist s) -> delivered_ok v (m_ev m ++ hist s).
Proof.
  unfold next, go. intros Hn He Hr v Hd. destruct (t_pc x) eqn:E; try discriminate; try (destruct int); try (destruct all); simpl in He;
    try (destruct (t_en x) eqn:Een); try (destruct (req s t) eqn:Er); try (destruct (cur s t0)); injection Hn as <-; simpl; auto;
    repeat split; auto; try congruence; try (intros <-; auto; congruence).
Qed.
Arguments next_del s t x {m} _ _ _ v _.

Lemma next_misc s t x m : next s t x = Some m -> (needs_en (t_pc x) = true -> t_en x = true) ->
  (needs_en (m_pc m) = true -> t_en x = true) /\
  (checked (m_pc m) = true -> (checked (t_pc x) = true \/ req s t = false) /\ m_req m = None) /\
  (forall c, exposed (m_pc m) = Some c -> (exposed (t_pc x) = Some c \/ checked (t_pc x) = true) /\ m_req m = None) /\
  (forall t' c, t_pc x = PIntrI t' c -> m_pc m = PIntrB t' c) /\
  (forall t' c, t_pc x = PIntrB t' c -> m_act m = ABroadcast c) /\
  (forall t', t_pc x = PIntrSet t' -> forall c, cur s t' = Some c -> m_pc m = PIntrI t' c).
Proof.
  unfold next, go. intros Hn He.
  destruct (t_pc x) eqn:E; try discriminate; try (destruct int); try (destruct all);
    try (destruct (t_en x) eqn:Een); try (destruct (req s t) eqn:Er); try (destruct (cur s t0) eqn:Ec); injection Hn as <-; simpl in *;
    repeat split; intros; try discriminate; try congruence; auto.
Qed.
Arguments next_misc s t x {m} _ _.

Lemma exposed_incur p c : exposed p = Some c -> incur p = Some c.
Proof. destruct p; simpl; try discriminate; destruct int; auto; discriminate. Qed.
Lemma exposed_awake_hI p c : exposed p = Some c -> p = PSleep c true \/ hI p = Some c.
Proof. destruct p; simpl; try discriminate; destruct int; try discriminate; intros [= ->]; auto. Qed.
Lemma checked_hD t p : checked p = true -> hD t p = Some t.
Proof. destruct p; simpl; try discriminate; auto. destruct int; auto; discriminate. Qed.

Lemma Inv_run s t x m o' l' : Inv s -> nth_error (thrs s) t = Some x -> next s t x = Some m ->
  effect t (m_act m) (own s) (set_thr (thrs s) t (MkThr (m_pc m) (t_en x) (t_scopes x))) o' l' ->
  Inv (MkSys o' (opt_req (req s) (m_req m)) (opt_cur (cur s) (m_cur m)) l' (m_ev m ++ hist s)).
Proof.
  intros HI Hx Hn He. destruct (own_run HI Hx Hn He) as [O1 O2]. pose proof (run_threads Hx Hn He) as HT.
  destruct (run_threads_fwd Hx Hn He) as [Ht Hf].
  pose proof (next_misc s t x Hn (i_en HI Hx)) as (M1 & M2 & M3 & M4 & M5 & M6).
  pose proof (next_req s t x Hn) as HR.
  constructor; cbn [own req cur thrs hist].
  - exact O1.
  - exact O2.
  - intros j y' Hj. pose proof (next_cur s t x Hn (i_cur HI Hx)) as HC. unfold opt_cur.
    destruct (HT j y' Hj) as [[-> ->]|(Hne & y & Hy & Hw)].
    + simpl. destruct (m_cur m) as [[t' v]|]; [destruct HC as [-> ->]; apply set_nat_same|]. rewrite HC. exact (i_cur HI Hx).
    + rewrite (woken_incur Hw). destruct (m_cur m) as [[t' v]|]; [destruct HC as [-> ->]; rewrite set_nat_other by auto|]; exact (i_cur HI Hy).
  - intros j y' Hj Hc. destruct (HT j y' Hj) as [[-> ->]|(Hne & y & Hy & Hw)].
    + destruct (M2 Hc) as [Hor Em]. rewrite Em. simpl. destruct Hor as [Hor|Hor]; [exact (i_chk HI Hx Hor)|exact Hor].
    + assert (Hcy : checked (t_pc y) = true) by (eapply (woken_pred (fun p => checked p = true)); eauto).
      pose proof (i_chk HI Hy Hcy) as Hr. unfold opt_req. destruct (m_req m) as [[t' b]|]; [|exact Hr].
      destruct HR as (_ & Hb1 & Hb0). unfold set_nat. destruct (Nat.eqb_spec t' j) as [->|]; [|exact Hr].
      destruct b; [|reflexivity]. exfalso. destruct (Hb1 eq_refl) as [HhD _].
      apply Hne. eapply (holds_inj (l := D j) HI Hy Hx); simpl; [now apply checked_hD|exact HhD].
  - intros j y' c Hj Hc Hr.
    (* the old thread j was exposed too, or it is t coming from the check, whose flag was clear *)
    assert (Hold : exists y, nth_error (thrs s) j = Some y /\ exposed (t_pc y) = Some c).
    { destruct (HT j y' Hj) as [[-> ->]|(Hne & y & Hy & Hw)].
      - destruct (M3 c Hc) as [[Hor|Hor] Em]; [eauto|]. exfalso. rewrite Em in Hr. simpl in Hr. rewrite (i_chk HI Hx Hor) in Hr. discriminate.
      - exists y. split; [exact Hy|]. eapply (woken_pred (fun p => exposed p = Some c)); eauto; simpl; intros ? []; discriminate. }
    destruct Hold as (y & Hy & Hcy).
    assert (Hor : req s j = true \/ (t_pc x = PIntrSet j)).
    { unfold opt_req in Hr. destruct (m_req m) as [[t' b]|]; [|auto]. destruct HR as (_ & Hb1 & Hb0). unfold set_nat in Hr.
      destruct (Nat.eqb_spec t' j) as [->|]; [|auto]. subst b. right. exact (proj2 (Hb1 eq_refl)). }
    destruct Hor as [Hrj|Hset].
    + destruct (i_exp HI _ Hy Hcy Hrj) as (u & z & Hz & Hpz). destruct (Nat.eq_dec u t) as [->|Hne].
      * rewrite Hx in Hz. injection Hz as <-. destruct Hpz as [Hpz|Hpz].
        -- exists t, (MkThr (m_pc m) (t_en x) (t_scopes x)). split; [exact Ht|]. right. exact (M4 _ _ Hpz).
        -- exfalso. assert (Hne : j <> t).
           { intros ->. rewrite Hx in Hy. injection Hy as <-. rewrite Hpz in Hcy. discriminate. }
           pose proof (M5 _ _ Hpz) as Ea. rewrite Ea in He.
           destruct (exposed_awake_hI _ Hc) as [Es|Es].
           ++ exact (@effect_broadcast_wakes _ _ _ _ _ _ _ _ true He Hj Es).
           ++ destruct (HT j y' Hj) as [[E _]|(_ & y0 & Hy0 & Hw)]; [congruence|]. rewrite Hy in Hy0. injection Hy0 as <-.
              assert (holds j (t_pc y') (I c)) as Hh by exact Es. apply (woken_holds _ _ Hw) in Hh.
              apply Hne. eapply (holds_inj (l := I c) HI Hy Hx Hh). simpl. rewrite Hpz. reflexivity.
      * destruct (Hf u z Hne Hz) as (z' & Hz' & Hw). exists u, z'. split; [exact Hz'|].
        destruct Hw as [->|(c' & int & _ & Es & _)]; [exact Hpz|]. rewrite Es in Hpz. destruct Hpz; discriminate.
    + exists t, (MkThr (m_pc m) (t_en x) (t_scopes x)). split; [exact Ht|]. left. apply (M6 _ Hset).
      rewrite (i_cur HI Hy). now apply exposed_incur.
  - intros j y' Hj Hc. destruct (HT j y' Hj) as [[-> ->]|(Hne & y & Hy & Hw)]; [exact (M1 Hc)|].
    assert (t_en y' = t_en y) as -> by (destruct Hw as [->|(c & int & _ & _ & ->)]; reflexivity).
    apply (i_en HI Hy). eapply (woken_pred (fun p => needs_en p = true)); eauto.
  - intros v. unfold opt_req. destruct (m_req m) as [[t' b]|].
    + destruct HR as (Hp & _). rewrite Hp. unfold set_nat. destruct (t' =? v); [reflexivity|]. exact (i_req HI v).
    + rewrite HR. exact (i_req HI v).
  - intros v. exact (next_del s t x Hn (i_en HI Hx) (i_req HI t) v (i_del HI v)).
Qed.

(** Changing the state of one thread between calls. *)
Definition outside (p : pc) : Prop :=
  (forall t l, ~ holds t p l) /\ incur p = None /\ checked p = false /\ exposed p = None /\ needs_en p = false /\ (forall t c, p <> PIntrI t c) /\ (forall t c, p <> PIntrB t c).

Lemma outside_idle : outside PIdle.
Proof. repeat split; simpl; try discriminate; intros ? []; simpl; try discriminate; tauto. Qed.
Lemma outside_start o p : start o = Some p -> outside p.
Proof.
  destruct o; simpl; try discriminate; intros [= <-]; repeat split; simpl; try discriminate; intros ? []; simpl; try discriminate; tauto.
Qed.

Lemma Inv_local s t x p en sc evs : Inv s -> nth_error (thrs s) t = Some x -> outside (t_pc x) -> outside p ->
  (forall v, pending v (evs ++ hist s) = pending v (hist s)) -> (forall v, delivered_ok v (hist s) -> delivered_ok v (evs ++ hist s)) ->
  Inv (MkSys (own s) (req s) (cur s) (set_thr (thrs s) t (MkThr p en sc)) (evs ++ hist s)).
Proof.
  intros HI Hx (A1 & A2 & A3 & A4 & A5 & A6 & A7) (B1 & B2 & B3 & B4 & B5 & B6 & B7) Hp Hd.
  assert (HT : forall j y', nth_error (set_thr (thrs s) t (MkThr p en sc)) j = Some y' -> (j = t /\ y' = MkThr p en sc) \/ (j <> t /\ nth_error (thrs s) j = Some y')).
  { intros j y' Hj. destruct (Nat.eq_dec t j) as [<-|Hne]; [rewrite (set_thr_same _ _ _ Hx) in Hj; injection Hj as <-; auto|].
    rewrite set_thr_other in Hj by auto. right. auto. }
  constructor; cbn [own req cur thrs hist].
  - intros j y' l Hj Hh. destruct (HT j y' Hj) as [[-> ->]|[Hne Hy]]; [exfalso; exact (B1 _ _ Hh)|]. exact (i_holds HI _ Hy Hh).
  - intros j l Hj. pose proof (i_own HI l Hj) as Hex. destruct l as [d|c|c]; auto; destruct Hex as (y & Hy & Hh).
    all: destruct (Nat.eq_dec t j) as [<-|Hne]; [rewrite Hx in Hy; injection Hy as <-; exfalso; exact (A1 _ _ Hh)|]; exists y; rewrite set_thr_other by auto; auto.
  - intros j y' Hj. destruct (HT j y' Hj) as [[-> ->]|[Hne Hy]]; [|exact (i_cur HI Hy)]. simpl. rewrite B2, <- A2. exact (i_cur HI Hx).
  - intros j y' Hj Hc. destruct (HT j y' Hj) as [[-> ->]|[Hne Hy]]; [simpl in Hc; congruence|exact (i_chk HI Hy Hc)].
  - intros j y' c Hj Hc Hr. destruct (HT j y' Hj) as [[-> ->]|[Hne Hy]]; [simpl in Hc; congruence|].
    destruct (i_exp HI _ Hy Hc Hr) as (u & z & Hz & Hpz). exists u, z. split; [|exact Hpz]. rewrite set_thr_other; [exact Hz|].
    intros ->. rewrite Hx in Hz. injection Hz as <-. destruct Hpz as [Hpz|Hpz]; [exact (A6 _ _ Hpz)|exact (A7 _ _ Hpz)].
  - intros j y' Hj Hc. destruct (HT j y' Hj) as [[-> ->]|[Hne Hy]]; [simpl in Hc; congruence|exact (i_en HI Hy Hc)].
  - intros v. rewrite Hp. exact (i_req HI v).
  - intros v. exact (Hd v (i_del HI v)).
Qed.

Lemma Inv_step s s' : Inv s -> step s s' -> Inv s'.
Proof.
  intros HI Hs. destruct Hs as [t x o p Hx Hi Hp Hok|t x c Hx Hi Hok|t x o en sc Hx Hi Hsc|t x m o' l' Hx Hn He|t x c int Hx Hp].
  - change (ECall t o :: hist s) with ([ECall t o] ++ hist s). eapply Inv_local; eauto.
    + rewrite Hi. exact outside_idle.
    + eapply outside_start; eauto.
  - destruct HI. constructor; cbn [own req cur thrs hist]; auto.
    + intros j y l Hj Hh. destruct l as [d|c'|c']; [| |contradiction]; rewrite set_own_other by discriminate; eauto.
    + intros j l Hj. destruct l as [d|c'|c']; auto; rewrite set_own_other in Hj by discriminate; exact (i_own0 _ _ Hj).
  - change (ERet t :: ECall t o :: hist s) with ([ERet t; ECall t o] ++ hist s). eapply Inv_local; eauto; [rewrite Hi|]; exact outside_idle.
  - exact (Inv_run HI Hx Hn He).
  - assert (HT : forall j y', nth_error (set_thr (thrs s) t (MkThr (PWoken c int) (t_en x) (t_scopes x))) j = Some y' ->
       exists y, nth_error (thrs s) j = Some y /\ same_or_woken (ABroadcast c) y y').
    { intros j y' Hj. destruct (Nat.eq_dec t j) as [<-|Hne].
      - rewrite (set_thr_same _ _ _ Hx) in Hj. injection Hj as <-. exists x. split; [exact Hx|]. right. exists c, int. auto.
      - rewrite set_thr_other in Hj by auto. exists y'. split; [exact Hj|left; reflexivity]. }
    assert (HF : forall j y, nth_error (thrs s) j = Some y -> exists y',
       nth_error (set_thr (thrs s) t (MkThr (PWoken c int) (t_en x) (t_scopes x))) j = Some y' /\ same_or_woken (ABroadcast c) y y').
    { intros j y Hj. destruct (Nat.eq_dec t j) as [<-|Hne].
      - rewrite Hx in Hj. injection Hj as <-. eexists. split; [eapply set_thr_same; eauto|]. right. exists c, int. auto.
      - exists y. rewrite set_thr_other by auto. split; [exact Hj|left; reflexivity]. }
    constructor; cbn [own req cur thrs hist].
    + intros j y' l Hj Hh. destruct (HT j y' Hj) as (y & Hy & Hw). apply (woken_holds _ _ Hw) in Hh. exact (i_holds HI _ Hy Hh).
    + intros j l Hj. pose proof (i_own HI l Hj) as Hex. destruct l as [d|c'|c']; auto; destruct Hex as (y & Hy & Hh);
        destruct (HF _ _ Hy) as (y' & Hy' & Hw); exists y'; split; auto; apply (woken_holds _ _ Hw); exact Hh.
    + intros j y' Hj. destruct (HT j y' Hj) as (y & Hy & Hw). rewrite (woken_incur Hw). exact (i_cur HI Hy).
    + intros j y' Hj Hc. destruct (HT j y' Hj) as (y & Hy & Hw). apply (i_chk HI Hy). eapply (woken_pred (fun p => checked p = true)); eauto.
    + intros j y' c' Hj Hc Hr. destruct (HT j y' Hj) as (y & Hy & Hw).
      assert (Hcy : exposed (t_pc y) = Some c') by (eapply (woken_pred (fun p => exposed p = Some c')); eauto; simpl; intros ? []; discriminate).
      destruct (i_exp HI _ Hy Hcy Hr) as (u & z & Hz & Hpz). destruct (HF _ _ Hz) as (z' & Hz' & Hwz). exists u, z'. split; [exact Hz'|].
      destruct Hwz as [->|(c2 & int2 & _ & Es & _)]; [exact Hpz|]. rewrite Es in Hpz. destruct Hpz; discriminate.
    + intros j y' Hj Hc. destruct (HT j y' Hj) as (y & Hy & Hw).
      assert (t_en y' = t_en y) as -> by (destruct Hw as [->|(c2 & int2 & _ & _ & ->)]; reflexivity).
      apply (i_en HI Hy). eapply (woken_pred (fun p => needs_en p = true)); eauto.
    + exact (i_req HI).
    + exact (i_del HI).
Qed.

Lemma Inv_reach ens s : reach ens s -> Inv s.
Proof.
  induction 1 as [|s s' _ IH Hs]; [|exact (Inv_step IH Hs)].
  assert (HT : forall t x, nth_error (thrs (init ens)) t = Some x -> t_pc x = PIdle).
  { intros t x H. simpl in H. rewrite nth_error_map in H. destruct (nth_error ens t); [|discriminate]. injection H as <-. reflexivity. }
  constructor; cbn [own req cur hist init]; try discriminate; auto.
  - intros t x l Hx Hh. rewrite (HT _ _ Hx) in Hh. destruct l; simpl in Hh; try discriminate; contradiction.
  - intros t x Hx. now rewrite (HT _ _ Hx).
  - intros t x Hx Hc. rewrite (HT _ _ Hx) in Hc. discriminate.
  - intros t. simpl. constructor.
Qed.
