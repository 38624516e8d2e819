From Verif Require Import TH_Spec.
Set Implicit Arguments.

(** ** Lists *)
Lemma upd_length A (l : list A) i x : length (upd l i x) = length l.
Proof. revert i. induction l as [|y l IH]; intros [|i]; cbn; auto. Qed.
Lemma upd_same A (l : list A) i x y : nth_error l i = Some y -> nth_error (upd l i x) i = Some x.
Proof. revert i. induction l as [|z l IH]; intros [|i]; cbn; try discriminate; auto. Qed.
Lemma upd_other A (l : list A) i j x : j <> i -> nth_error (upd l i x) j = nth_error l j.
Proof. revert i j. induction l as [|z l IH]; intros [|i] [|j] H; cbn; auto; try congruence. Qed.
Lemma upd_none A (l : list A) i x : nth_error l i = None -> upd l i x = l.
Proof. revert i. induction l as [|z l IH]; intros [|i] H; cbn in *; auto; try discriminate. now rewrite IH. Qed.
Lemma upd_inv A (l : list A) i j x y : nth_error (upd l i x) j = Some y -> (j = i /\ y = x) \/ (j <> i /\ nth_error l j = Some y).
Proof.
  intros H. destruct (Nat.eq_dec j i) as [->|Hj]; [|rewrite upd_other in H by exact Hj; now right].
  left. split; [reflexivity|]. assert (Hl : i < length (upd l i x)) by (apply nth_error_Some; congruence). rewrite upd_length in Hl.
  destruct (nth_error l i) as [z|] eqn:E; [|apply nth_error_None in E; lia]. rewrite (upd_same _ _ _ E) in H. congruence.
Qed.
Lemma last_split A (l : list A) o : nth_error l (length l - 1) = Some o -> l = removelast l ++ [o].
Proof.
  intros H. destruct (@exists_last _ l) as (l' & a & E); [intros ->; discriminate|]. rewrite E in *. rewrite removelast_last.
  rewrite app_length in H. cbn in H. replace (length l' + 1 - 1) with (length l') in H by lia. rewrite nth_error_app2 in H by lia.
  rewrite Nat.sub_diag in H. injection H as <-. reflexivity.
Qed.
Lemma Forall_upd A (Q : A -> Prop) (l : list A) i x : Forall Q l -> Q x -> Forall Q (upd l i x).
Proof. intros H Hx. revert i. induction H as [|y l Hy H IH]; intros [|i]; cbn; constructor; auto. Qed.
Lemma Forall_nth A (Q : A -> Prop) l i x : Forall Q l -> nth_error l i = Some x -> Q x.
Proof. intros H E. rewrite Forall_forall in H. apply H. exact (nth_error_In _ _ E). Qed.

(** ** Counting the objects that represent a thread *)
Definition c1 (j : nat) (h : option nat) : nat := match h with Some m => if m =? j then 1 else 0 | None => 0 end.
Definition co (j : nat) (o : obj) : nat := match o with OThr _ h => c1 j h | _ => 0 end.
Fixpoint cnt (j : nat) (l : list obj) : nat := match l with [] => 0 | o :: r => co j o + cnt j r end.
Fixpoint cntb (j : nat) (l : list (option nat)) : nat := match l with [] => 0 | o :: r => c1 j o + cntb j r end.
Fixpoint tot (j : nat) (l : list thr) : nat := match l with [] => 0 | x :: r => cnt j (loc x) + tot j r end.
Definition rel1 (j : nat) (e : event) : nat := match e with EJoined _ m | EDetached _ m => if m =? j then 1 else 0 | _ => 0 end.
Fixpoint rel (j : nat) (h : list event) : nat := match h with [] => 0 | e :: r => rel1 j e + rel j r end.

Lemma cnt_app j l l' : cnt j (l ++ l') = cnt j l + cnt j l'.
Proof. induction l; cbn; lia. Qed.
Lemma cntb_app j l l' : cntb j (l ++ l') = cntb j l + cntb j l'.
Proof. induction l; cbn; lia. Qed.
Lemma tot_app j l l' : tot j (l ++ l') = tot j l + tot j l'.
Proof. induction l; cbn; lia. Qed.
Lemma rel_app j l l' : rel j (l ++ l') = rel j l + rel j l'.
Proof. induction l; cbn; lia. Qed.
Lemma cnt_upd j l i o o' : nth_error l i = Some o -> cnt j (upd l i o') + co j o = cnt j l + co j o'.
Proof. revert i. induction l as [|z l IH]; intros [|i]; cbn; try discriminate; intros H; [injection H as ->; lia|specialize (IH _ H); lia]. Qed.
Lemma cntb_upd j l i o o' : nth_error l i = Some o -> cntb j (upd l i o') + c1 j o = cntb j l + c1 j o'.
Proof. revert i. induction l as [|z l IH]; intros [|i]; cbn; try discriminate; intros H; [injection H as ->; lia|specialize (IH _ H); lia]. Qed.
Lemma tot_upd j l i x x' : nth_error l i = Some x -> tot j (upd l i x') + cnt j (loc x) = tot j l + cnt j (loc x').
Proof. revert i. induction l as [|z l IH]; intros [|i]; cbn; try discriminate; intros H; [injection H as ->; lia|specialize (IH _ H); lia]. Qed.
Lemma cnt_seth_none j l i : cnt j (seth l i None) + c1 j (hof l i) = cnt j l.
Proof.
  unfold seth, hof. destruct (nth_error l i) as [[k h|f g|w]|] eqn:E; cbn; try lia. pose proof (@cnt_upd j l i _ (OThr k None) E). cbn in *. lia.
Qed.
Lemma cnt_last j l o : nth_error l (length l - 1) = Some o -> cnt j l = cnt j (removelast l) + co j o.
Proof. intros H. rewrite (last_split _ H) at 1. rewrite cnt_app. cbn. lia. Qed.
Lemma cnt_last_hof j l : cnt j l = cnt j (removelast l) + c1 j (hof l (length l - 1)).
Proof.
  unfold hof. destruct (nth_error l (length l - 1)) as [o|] eqn:E.
  - rewrite (cnt_last _ _ E). destruct o; reflexivity.
  - apply nth_error_None in E. destruct l; [reflexivity|cbn in E; lia].
Qed.
Lemma take_all_cnt j args : forall l l' os, take_all l args = (l', os) -> cnt j l' + cnt j os = cnt j l.
Proof.
  induction args as [|i args IH]; intros l l' os; cbn.
  - intros H; injection H as <- <-; cbn; lia.
  - destruct (nth_error l i) as [[k h|f g|w]|] eqn:E; try apply IH. destruct (take_all (upd l i (OThr k None)) args) as [l1 os1] eqn:E1.
    intros H; injection H as <- <-. apply IH in E1. cbn. pose proof (@cnt_upd j l i _ (OThr k None) E). cbn in *. lia.
Qed.
Lemma take_all_len args : forall l l' os, take_all l args = (l', os) -> length l' = length l /\ length os <= length args.
Proof.
  induction args as [|i args IH]; intros l l' os; cbn.
  - intros H; injection H as <- <-; cbn; lia.
  - destruct (nth_error l i) as [[k h|f g|w]|] eqn:E; try (intros H; apply IH in H; lia).
    destruct (take_all (upd l i (OThr k None)) args) as [l1 os1] eqn:E1. intros H; injection H as <- <-. apply IH in E1. rewrite upd_length in E1. cbn. lia.
Qed.
Lemma seth_length l i h : length (seth l i h) = length l.
Proof. unfold seth. destruct (nth_error l i) as [[]|]; rewrite ?upd_length; reflexivity. Qed.
Lemma hof_nth l i k h : nth_error l i = Some (OThr k h) -> hof l i = h.
Proof. unfold hof. now intros ->. Qed.
Lemma hof_seth l i : hof (seth l i None) i = None.
Proof. unfold hof, seth. destruct (nth_error l i) as [[k h|f g|w]|] eqn:E; rewrite ?E; auto. now rewrite (upd_same _ _ _ E). Qed.
Lemma hof_seth_other l i g h : g <> i -> hof (seth l i h) g = hof l g.
Proof. intros H. unfold hof, seth. destruct (nth_error l i) as [[k h'|f g'|w]|] eqn:E; auto. now rewrite upd_other. Qed.

Lemma seth_upd l i k h0 h : nth_error l i = Some (OThr k h0) -> seth l i h = upd l i (OThr k h).
Proof. unfold seth. now intros ->. Qed.
Lemma swap_cnt j l a b k h k' h' : nth_error l a = Some (OThr k h) -> nth_error l b = Some (OThr k' h') -> cnt j (seth (seth l a h') b h) = cnt j l.
Proof.
  intros Ha Hb. rewrite (@seth_upd _ _ _ _ _ Ha). destruct (Nat.eq_dec b a) as [->|Hn].
  - assert (E : nth_error (upd l a (OThr k h')) a = Some (OThr k h')) by (apply (upd_same _ _ _ Ha)).
    rewrite (@seth_upd _ _ _ _ _ E). pose proof (@cnt_upd j l a _ (OThr k h') Ha). pose proof (@cnt_upd j _ a _ (OThr k h) E). cbn in *. lia.
  - assert (E : nth_error (upd l a (OThr k h')) b = Some (OThr k' h')) by (rewrite upd_other by exact Hn; exact Hb).
    rewrite (@seth_upd _ _ _ _ _ E). pose proof (@cnt_upd j l a _ (OThr k h') Ha). pose proof (@cnt_upd j _ b _ (OThr k' h) E). cbn in *. lia.
Qed.
Definition assign (l : list obj) (a b : nat) (k : kind) : list obj :=
  let l1 := upd l a (OThr k None) in upd (seth l1 b None) a (OThr k (hof l1 b)).
Lemma assign_cnt j l a b k hi : nth_error l a = Some (OThr k hi) -> cnt j (assign l a b k) + c1 j hi = cnt j l.
Proof.
  intros Ha. unfold assign. cbn zeta. set (l1 := upd l a (OThr k None)).
  assert (E1 : nth_error l1 a = Some (OThr k None)) by (apply (upd_same _ _ _ Ha)).
  assert (E2 : nth_error (seth l1 b None) a = Some (OThr k None)).
  { destruct (Nat.eq_dec b a) as [->|Hn].
    - rewrite (@seth_upd _ _ _ _ _ E1). apply (upd_same _ _ _ E1).
    - unfold seth. destruct (nth_error l1 b) as [[]|]; auto. rewrite upd_other; auto. }
  pose proof (@cnt_upd j l a _ (OThr k None) Ha). fold l1 in H. pose proof (cnt_seth_none j l1 b). pose proof (@cnt_upd j _ a _ (OThr k (hof l1 b)) E2).
  cbn in *. lia.
Qed.
Lemma assign_length l a b k : length (assign l a b k) = length l.
Proof. unfold assign. cbn zeta. now rewrite upd_length, seth_length, upd_length. Qed.

(** all ways in which [lstep] yields an effect *)
Ltac leaf H :=
  unfold lstep, go, die in H;
  repeat match type of H with
  | context [match ?X with _ => _ end] => match X with
      | take_all _ _ => let E := fresh "E" in destruct X as [? ?] eqn:E
      | _ => let E := fresh "E" in destruct X eqn:E
      end
  end; try discriminate H; injection H as <-; cbn [ex ee enew ereq ebox ewhy loc cont unw en rq fin leave];
  try match goal with |- context [upd (seth (upd ?l ?a (OThr ?k None)) ?b None) ?a (OThr ?k (hof (upd ?l ?a (OThr ?k None)) ?b))] =>
        change (upd (seth (upd l a (OThr k None)) b None) a (OThr k (hof (upd l a (OThr k None)) b))) with (assign l a b k) end.

Definition cnew (j : nat) (o : option thr) : nat := match o with Some y => cnt j (loc y) | None => 0 end.
Definition born (n j : nat) (o : option thr) : nat := match o with Some _ => if n =? j then 1 else 0 | None => 0 end.

Lemma lstep_count v3 n ended bx t x ch e j : lstep v3 n ended bx t x ch = Some e ->
  cnt j (loc (ex e)) + cnew j (enew e) + cntb j (setbox bx (ebox e)) + rel j (ee e) = cnt j (loc x) + cntb j bx + born n j (enew e).
Proof.
  intros H. leaf H; cbn [cnew born setbox rel rel1 app Nat.add]; try lia.
  all: try match goal with E : take_all _ _ = _ |- _ => pose proof (@take_all_cnt j _ _ _ _ E) end.
  all: rewrite ?cnt_app; cbn [cnt co c1 loc]; try lia.
  all: try (erewrite swap_cnt by eassumption; lia).
  all: try match goal with E : nth_error ?l ?i = Some ?o |- context [assign ?l ?i ?b ?k] => pose proof (@assign_cnt j l i b k _ E); cbn [c1] in *; lia end.
  all: try match goal with E : nth_error ?l ?i = Some ?o, F : nth_error ?bx ?b = Some ?h |- context [upd ?l ?i ?o'] => pose proof (@cnt_upd j l i o o' E);
    match goal with |- context [upd bx b ?hh] => pose proof (@cntb_upd j bx b h hh F) end; cbn [co] in *; cbn; try lia end.
  all: try match goal with E : nth_error ?l ?i = Some ?o |- context [upd ?l ?i ?o'] => pose proof (@cnt_upd j l i o o' E); cbn [co c1] in *; try lia end.
  all: try match goal with E : hof ?l ?i = _ |- context [seth ?l ?i None] => pose proof (cnt_seth_none j l i) as G; rewrite E in G; cbn [c1] in *; lia end.
  all: try match goal with E : nth_error _ (length _ - 1) = Some _ |- _ => rewrite (cnt_last j _ E); cbn [co c1]; lia end.
  all: try match goal with E : hof ?l (length ?l - 1) = _ |- _ => pose proof (cnt_last_hof j l) as G; rewrite E in G; cbn [c1] in *; lia end.
Qed.

(** ** The history *)
Definition fdone (f : functor) (hd : option nat) (h : list event) : Prop := joins f -> forall j, hd = Some j -> In (EEnd j) h.
Definition egood (e : event) (h : list event) : Prop :=
  ~ In (EEnd (actor e)) h /\
  match e with
  | EStart _ j => forall u, ~ In (EStart u j) h
  | EJoined _ j => In (EEnd j) h
  | EIntr t => in_dtor t h = false
  | EDestroyed _ f hd => fdone f hd h
  | EAssigned _ (Some f) hd => fdone f hd h
  | _ => True
  end.
Fixpoint hgood (h : list event) : Prop := match h with [] => True | e :: r => egood e r /\ hgood r end.
Lemma hgood_split e h2 h1 : hgood (h2 ++ e :: h1) -> egood e h1.
Proof. induction h2 as [|e' h2 IH]; cbn; intros [H1 H2]; auto. Qed.

Definition lastok (x : thr) : Prop := hof (loc x) (length (loc x) - 1) = None.
Definition easy (a : act) : Prop := match a with Do _ | APop | AThrow => True | _ => False end.
Definition shape (h : list event) (x : thr) : Prop :=
  match cont x with
  | AFun f i true :: r =>
      exists was r', r = AFinish f was (hof (loc x) i) :: r' /\ (lastok x \/ i = length (loc x) - 1) /\ en x = false /\ Forall easy r'
  | AFun f i false :: r => exists j r', r = AAssign (Some f) i j (hof (loc x) i) :: r' /\ Forall easy r'
  | AJoin i w true ct tm :: r =>
      exists f was r', r = AFinish f was (hof (loc x) i) :: r' /\ ct = false /\ tm = false /\ (lastok x \/ i = length (loc x) - 1) /\ en x = false /\ Forall easy r'
  | AJoin i w false ct tm :: r =>
      Forall easy r \/ exists f j r', r = AAssign (Some f) i j (hof (loc x) i) :: r' /\ ct = false /\ tm = false /\ Forall easy r'
  | AFinish f was hd :: r => en x = false /\ fdone f hd h /\ lastok x /\ Forall easy r
  | AAssign (Some f) i j hd :: r => fdone f hd h /\ hof (loc x) i = None /\ Forall easy r
  | AAssign None i j hd :: r => Forall easy r
  | r => Forall easy r
  end.
Definition dt (r : list act) : bool := match r with AFun _ _ true :: _ | AJoin _ _ true _ _ :: _ | AFinish _ _ _ :: _ => true | _ => false end.
Definition nodo (a : act) : Prop := match a with APop | AFun _ _ true | AJoin _ _ true _ _ | AFinish _ _ _ => True | _ => False end.
Fixpoint popc (r : list act) : nat := match r with [] => 0 | (APop | AFinish _ _ _) :: r' => S (popc r') | _ :: r' => popc r' end.
Definition unwok (x : thr) : Prop := unw x = true -> Forall nodo (cont x) /\ popc (cont x) = length (loc x).

Lemma easy_dt r : Forall easy r -> dt r = false.
Proof. intros H. destruct H as [|a r Ha H]; [reflexivity|]. destruct a; cbn in *; auto; contradiction. Qed.
Lemma easy_shape h x : Forall easy (cont x) -> shape h x.
Proof. intros H. unfold shape. destruct (cont x) as [|a r]; auto. inversion H as [|a0 r0 Ha Hr]; subst. destruct a; cbn in Ha; try contradiction; auto. Qed.
Lemma easy_repeat n : Forall easy (repeat APop n).
Proof. induction n; cbn; constructor; cbn; auto. Qed.
Lemma nodo_repeat n : Forall nodo (repeat APop n).
Proof. induction n; cbn; constructor; cbn; auto. Qed.
Lemma popc_repeat n : popc (repeat APop n) = n.
Proof. induction n; cbn; auto. Qed.
Lemma easy_do b : Forall easy (map Do b).
Proof. induction b; cbn; constructor; cbn; auto. Qed.
Lemma in_dtor_app_other t ev h : (forall e, In e ev -> actor e <> t) -> in_dtor t (ev ++ h) = in_dtor t h.
Proof.
  induction ev as [|e ev IH]; intros H; [reflexivity|]. assert (He : actor e <> t) by (apply H; left; reflexivity).
  assert (IH' : in_dtor t (ev ++ h) = in_dtor t h) by (apply IH; intros e' He'; apply H; right; exact He').
  destruct e; cbn in He |- *; rewrite ?IH'; auto; apply Nat.eqb_neq in He; rewrite He; auto.
Qed.
Lemma seth_lastok l i : hof l (length l - 1) = None \/ i = length l - 1 -> hof (seth l i None) (length (seth l i None) - 1) = None.
Proof.
  rewrite seth_length. intros H. destruct (Nat.eq_dec (length l - 1) i) as [E|E]; [rewrite E; apply hof_seth|].
  rewrite hof_seth_other by exact E. destruct H as [H|H]; [exact H|congruence].
Qed.
Lemma fdone_mono f hd ev h : fdone f hd h -> fdone f hd (ev ++ h).
Proof. intros H Hj j E. apply in_or_app. right. exact (H Hj j E). Qed.
Lemma shape_mono ev h x : shape h x -> shape (ev ++ h) x.
Proof.
  unfold shape. destruct (cont x) as [|a r]; auto. destruct a; auto.
  - intros (H1 & H2 & H3 & H4). repeat split; auto using fdone_mono.
  - destruct f; auto. intros (H1 & H2 & H3). repeat split; auto using fdone_mono.
Qed.

Ltac useshape HS x := unfold shape in HS;
  match goal with E : cont x = _ |- _ => rewrite E in HS end;
  repeat match goal with E : ?a = Do _ |- _ => subst a | E : ?c = New _ _ _ _ |- _ => subst c end.

Lemma lstep_shape v3 n ended bx t x ch e h : lstep v3 n ended bx t x ch = Some e -> (forall j, ended j = true -> In (EEnd j) h) -> shape h x -> shape (ee e ++ h) (ex e).
Proof.
  intros H He HS. pose proof HS as HS0. apply (shape_mono (ee e)) in HS0. revert HS0. leaf H; intros HS0; try exact HS0.
  all: useshape HS x; cbn [app].
  all: try (inversion HS as [|? ? Ha Hr]; subst).
  all: try (apply easy_shape; cbn [cont]; auto using easy_repeat; fail).
  all: try (apply easy_shape; cbn [leave cont]; try apply Forall_app; try split; auto using easy_repeat; repeat constructor; fail).
  all: clear HS0.
  all: repeat match goal with
       | HS : (if ?d then _ else _) |- _ => destruct d
       | HS : _ \/ (exists _, _) |- _ => destruct HS as [HS|HS]
       | HS : exists _, _ |- _ => destruct HS as [? HS]
       | HS : _ /\ _ |- _ => destruct HS
       | HS : match ?f with Some _ => _ | None => _ end |- _ => destruct f
       end; subst; try discriminate.
  all: try (apply easy_shape; cbn [leave cont]; auto using easy_repeat; fail).
  all: unfold shape, lastok in *; cbn [cont loc en].
  all: try match goal with E : nth_error _ _ = Some (OThr _ _) |- _ => rewrite (hof_nth _ _ E) end.
  all: try (do 4 eexists; split; [reflexivity|]; auto; fail).
  all: repeat match goal with
       | |- exists _, _ => eexists
       | |- _ /\ _ => split
       end; try reflexivity; try eassumption; auto using hof_seth, seth_lastok.
  all: try (unfold fdone; cbn; intros Hj m Em; first [contradiction|congruence|rewrite Em in *; right; apply He; congruence]).
  all: try match goal with E : ?w && false = true |- _ => rewrite andb_false_r in E; discriminate end.
  all: try (match goal with H : _ \/ ?i = _ |- hof _ _ = None => destruct H as [H| -> ]; assumption end).
  all: try (right; do 3 eexists; split; [reflexivity|]; auto; fail).
  left. unfold hof. match goal with E : nth_error _ _ = Some (OGuard _ _) |- _ => now rewrite E end.
Qed.

Lemma lstep_actor v3 n ended bx t x ch e : lstep v3 n ended bx t x ch = Some e -> forall ev, In ev (ee e) -> actor ev = t.
Proof. intros H. leaf H; cbn; intros ev Hev; repeat (destruct Hev as [<-|Hev]; [reflexivity|]); contradiction. Qed.

Lemma lstep_dt v3 n ended bx t x ch e h : lstep v3 n ended bx t x ch = Some e -> shape h x -> in_dtor t h = dt (cont x) -> in_dtor t (ee e ++ h) = dt (cont (ex e)).
Proof.
  intros H HS HD. leaf H; useshape HS x; try match goal with E : cont x = _ |- _ => rewrite E in HD end; cbn [app in_dtor dt] in *; rewrite ?Nat.eqb_refl; auto.
  all: try match goal with E : cont _ = _ |- _ => rewrite E end; auto.
  all: try (inversion HS as [|? ? Ha Hr]; subst).
  all: repeat match goal with
       | HS : (if ?d then _ else _) |- _ => destruct d
       | HS : _ \/ (exists _, _) |- _ => destruct HS as [HS|HS]
       | HS : exists _, _ |- _ => destruct HS as [? HS]
       | HS : _ /\ _ |- _ => destruct HS
       | HS : match ?f with Some _ => _ | None => _ end |- _ => destruct f
       end; subst; try discriminate; cbn [dt]; auto.
  all: try (rewrite HD; symmetry; apply easy_dt; auto using easy_repeat; fail).
  all: try (symmetry; apply easy_dt; auto using easy_repeat; fail).
  all: rewrite HD; symmetry; apply easy_dt; apply Forall_app; split; auto using easy_repeat; repeat constructor.
Qed.

Ltac open_shape := repeat match goal with
       | HS : (if ?d then _ else _) |- _ => destruct d
       | HS : _ \/ (exists _, _) |- _ => destruct HS as [HS|HS]
       | HS : exists _, _ |- _ => destruct HS as [? HS]
       | HS : _ /\ _ |- _ => destruct HS
       | HS : match ?f with Some _ => _ | None => _ end |- _ => destruct f
       end; subst; try discriminate.

Lemma lstep_good v3 n ended bx t x ch e h : lstep v3 n ended bx t x ch = Some e -> (forall j, ended j = true -> In (EEnd j) h) ->
  (forall u, ~ In (EStart u n) h) -> ~ In (EEnd t) h -> shape h x -> in_dtor t h = dt (cont x) -> hgood h -> hgood (ee e ++ h).
Proof.
  intros H He Hn Ht HS HD HG. leaf H; cbn [app hgood]; try exact HG.
  all: try (split; [|exact HG]; unfold egood; cbn [actor]; split; auto; fail).
  all: useshape HS x; try (inversion HS as [|? ? Ha Hr]; subst); open_shape; unfold egood; cbn [actor dt] in *.
  all: repeat split; auto; try (intros [Hc|Hc]; [discriminate|contradiction]).
  all: repeat match goal with E : _ && _ = true |- _ => apply andb_prop in E; destruct E end; try congruence.
  exact (@fdone_mono _ _ [_] _ H).
Qed.

Lemma removelast_length A (l : list A) : length (removelast l) = length l - 1.
Proof. induction l as [|a [|b l] IH]; auto. change (length (removelast (a :: b :: l))) with (S (length (removelast (b :: l)))). rewrite IH. cbn. lia. Qed.

Lemma lstep_unwok v3 n ended bx t x ch e h : lstep v3 n ended bx t x ch = Some e -> shape h x -> unwok x -> unwok (ex e).
Proof.
  intros H HS HU. unfold unwok in *. destruct (unw x) eqn:Eu.
  - destruct (HU eq_refl) as (HF & HP). clear HU. leaf H; intros _; try (rewrite ?Eu in *; discriminate).
    all: try match goal with E : cont _ = _ |- _ => rewrite E in HF, HP end.
    all: try match type of HF with Forall _ (_ :: _) => apply Forall_cons_iff in HF; destruct HF as (Ha & Hr); cbn in Ha; try contradiction end.
    all: cbn [popc] in HP; rewrite ?seth_length, ?removelast_length; try (split; [auto|lia]).
    all: try match goal with E : nth_error _ _ = None |- _ => apply nth_error_None in E; lia end.
    all: try match goal with E : cont _ = _ |- _ => rewrite ?E end; cbn [popc]; split; [|lia].
    all: repeat apply Forall_cons; cbn; auto.
  - leaf H; try discriminate; try (intros; congruence).
    all: intros _; split; [apply nodo_repeat|apply popc_repeat].
Qed.

(** ** The threads after a step *)
Definition alike (y y0 : thr) : Prop := loc y = loc y0 /\ cont y = cont y0 /\ unw y = unw y0 /\ en y = en y0 /\ fin y = fin y0.
Lemma alike_refl y : alike y y.
Proof. repeat split. Qed.
Lemma request_nth l o u y : nth_error (request l o) u = Some y -> exists y0, nth_error l u = Some y0 /\ alike y y0.
Proof.
  destruct o as [j|]; cbn; [|intros H; eexists; split; [exact H|apply alike_refl]].
  destruct (nth_error l j) as [z|] eqn:Ej; [|intros H; eexists; split; [exact H|apply alike_refl]].
  intros H. destruct (upd_inv _ _ _ _ H) as [(-> & ->)|(_ & H')].
  - exists z. split; [exact Ej|]. repeat split.
  - exists y. split; [exact H'|apply alike_refl].
Qed.
Lemma request_length l o : length (request l o) = length l.
Proof. destruct o as [j|]; cbn; auto. destruct (nth_error l j); auto. apply upd_length. Qed.
Lemma request_tot j l o : tot j (request l o) = tot j l.
Proof.
  destruct o as [m|]; cbn; auto. destruct (nth_error l m) as [z|] eqn:Em; auto.
  pose proof (@tot_upd j l m z (MkT (loc z) (cont z) (unw z) (en z) true (fin z)) Em). cbn in *. lia.
Qed.
Lemma apply_length s t e : length (ths (apply s t e)) = length (ths s) + match enew e with Some _ => 1 | None => 0 end.
Proof. unfold apply; cbn. rewrite app_length, request_length, upd_length. destruct (enew e); reflexivity. Qed.
Lemma apply_nth s t e u y : nth_error (ths (apply s t e)) u = Some y ->
  exists y0, alike y y0 /\ ((u = t /\ t < length (ths s) /\ y0 = ex e) \/ (u <> t /\ nth_error (ths s) u = Some y0) \/ (u = length (ths s) /\ enew e = Some y0)).
Proof.
  unfold apply; cbn. intros H. destruct (Nat.ltb_spec u (length (ths s))) as [Hu|Hu].
  - rewrite nth_error_app1 in H by (rewrite request_length, upd_length; exact Hu). apply request_nth in H as (y0 & H & Ha). exists y0. split; [exact Ha|].
    destruct (upd_inv _ _ _ _ H) as [(-> & ->)|(Hn & H')]; [left; auto|right; left; auto].
  - rewrite nth_error_app2 in H by (rewrite request_length, upd_length; exact Hu). rewrite request_length, upd_length in H.
    destruct (enew e) as [z|] eqn:En; [|destruct (u - length (ths s)); discriminate].
    destruct (u - length (ths s)) as [|d] eqn:Ed; [|destruct d; discriminate]. injection H as <-. exists z. split; [apply alike_refl|].
    right. right. split; [lia|reflexivity].
Qed.
Lemma step_inv v3 s t ch s' : step v3 s t ch = Some s' ->
  why s = None /\ exists x e, nth_error (ths s) t = Some x /\ fin x = false /\ lstep v3 (length (ths s)) (has_ended s) (box s) t x ch = Some e /\ s' = apply s t e.
Proof.
  unfold step. destruct (why s); [discriminate|]. intros H. split; [reflexivity|]. destruct (nth_error (ths s) t) as [x|]; [|discriminate].
  destruct (fin x) eqn:Ef; [discriminate|]. destruct (lstep v3 (length (ths s)) (has_ended s) (box s) t x ch) as [e|] eqn:El; [|discriminate].
  injection H as <-. exists x, e. auto.
Qed.

Lemma lstep_new v3 n ended bx t x ch e y : lstep v3 n ended bx t x ch = Some e -> enew e = Some y ->
  In (EStart t n) (ee e) /\ Forall easy (cont y) /\ unw y = false /\ en y = true /\ fin y = false /\ rq y = false.
Proof. intros H. leaf H; intros E'; try discriminate. injection E' as <-. cbn. repeat split; auto using easy_do. Qed.
Lemma lstep_start v3 n ended bx t x ch e u j : lstep v3 n ended bx t x ch = Some e -> In (EStart u j) (ee e) -> u = t /\ j = n /\ exists y, enew e = Some y.
Proof. intros H. leaf H; cbn; intros HI; repeat (destruct HI as [HI|HI]; try discriminate); try contradiction. injection HI as <- <-. eauto. Qed.
Lemma lstep_fin v3 n ended bx t x ch e : lstep v3 n ended bx t x ch = Some e -> fin x = false -> (fin (ex e) = true <-> In (EEnd t) (ee e)).
Proof. intros H Hf. leaf H; cbn [fin leave]; rewrite ?Hf; cbn; split; auto; try discriminate; intros HI; repeat (destruct HI as [HI|HI]; try discriminate); contradiction. Qed.

Record Inv (s : cfg) : Prop := {
  i_cnt : forall j, tot j (ths s) + cntb j (box s) + rel j (hist s) = if (1 <=? j) && (j <? length (ths s)) then 1 else 0;
  i_hist : hgood (hist s);
  i_fin : forall t x, nth_error (ths s) t = Some x -> (fin x = true <-> In (EEnd t) (hist s));
  i_act : forall e, In e (hist s) -> actor e < length (ths s);
  i_start : forall j, started (hist s) j <-> 1 <= j < length (ths s);
  i_pos : 1 <= length (ths s);
  i_shape : forall t x, nth_error (ths s) t = Some x -> shape (hist s) x;
  i_dt : forall t x, nth_error (ths s) t = Some x -> in_dtor t (hist s) = dt (cont x);
  i_unw : forall t x, nth_error (ths s) t = Some x -> unwok x
}.
Lemma Inv_init main nb : Inv (init main nb).
Proof.
  unfold init. split; cbn; auto.
  - intros j. assert (Hb : cntb j (repeat None nb) = 0) by (induction nb; cbn; auto). rewrite Hb.
    destruct j as [|j]; cbn; auto.
  - intros [|[|t]] x H; try discriminate. injection H as <-. cbn. split; [discriminate|contradiction].
  - intros e [].
  - intros j. split; [intros (t & [])|lia].
  - intros [|[|t]] x H; try discriminate. injection H as <-. apply easy_shape. apply easy_do.
  - intros [|[|t]] x H; try discriminate. injection H as <-. cbn [cont]. now rewrite easy_dt by apply easy_do.
  - intros [|[|t]] x H; try discriminate. injection H as <-. intros Hu. discriminate.
Qed.
Lemma alike_shape h y y0 : alike y y0 -> shape h y0 -> shape h y.
Proof. intros (E1 & E2 & E3 & E4 & E5). unfold shape, lastok. now rewrite E1, E2, E4. Qed.
Lemma Inv_ended s j : Inv s -> has_ended s j = true -> In (EEnd j) (hist s).
Proof. intros HI. unfold has_ended. destruct (nth_error (ths s) j) as [y|] eqn:Ej; [|discriminate]. apply (i_fin HI _ Ej). Qed.

Lemma Inv_step v3 s t ch s' : Inv s -> step v3 s t ch = Some s' -> Inv s'.
Proof.
  intros HI Hs. apply step_inv in Hs as (Hw & x & e & Hx & Hf & Hl & ->).
  assert (Ht : t < length (ths s)) by (apply nth_error_Some; congruence).
  assert (Hnend : ~ In (EEnd t) (hist s)) by (intros Hc; apply (i_fin HI _ Hx) in Hc; congruence).
  pose proof (i_shape HI _ Hx) as HS. pose proof (i_dt HI _ Hx) as HD. pose proof (i_unw HI _ Hx) as HU.
  pose proof (lstep_actor _ _ _ _ _ _ _ Hl) as HA.
  assert (Hnew : forall u, ~ In (EStart u (length (ths s))) (hist s)).
  { intros u Hc. assert (started (hist s) (length (ths s))) as Hst by (now exists u). apply (i_start HI) in Hst. lia. }
  split.
  - intros j. pose proof (i_cnt HI j) as HC. pose proof (@lstep_count _ _ _ _ _ _ _ _ j Hl) as HL. pose proof (@tot_upd j _ _ _ (ex e) Hx) as HT.
    rewrite apply_length. unfold apply; cbn [ths box hist]. rewrite tot_app, request_tot, rel_app.
    destruct (enew e) as [y|] eqn:En; cbn [tot cnew born] in *.
    + destruct (Nat.eqb_spec (length (ths s)) j) as [<-|Hn].
      * rewrite Nat.ltb_irrefl, andb_false_r in HC.
        replace ((1 <=? length (ths s)) && (length (ths s) <? length (ths s) + 1)) with true; [lia|].
        symmetry. apply andb_true_intro. split; [apply Nat.leb_le; exact (i_pos HI)|apply Nat.ltb_lt; lia].
      * replace ((1 <=? j) && (j <? length (ths s) + 1)) with ((1 <=? j) && (j <? length (ths s))); [lia|]. f_equal.
        destruct (Nat.ltb_spec j (length (ths s))), (Nat.ltb_spec j (length (ths s) + 1)); auto; lia.
    + rewrite (Nat.add_0_r (length (ths s))). rewrite <- HC. lia.
  - cbn [apply hist]. apply (@lstep_good _ _ _ _ _ _ _ _ _ Hl); auto using (i_hist HI). intros j Hj. exact (Inv_ended _ HI Hj).
  - intros u y Hy. apply apply_nth in Hy as (y0 & (_ & _ & _ & _ & ->) & [(-> & _ & ->)|[(Hn & Hy)|(-> & Hy)]]); cbn [apply hist]; rewrite in_app_iff.
    + rewrite (lstep_fin _ _ _ _ _ _ _ Hl Hf). tauto.
    + rewrite (i_fin HI _ Hy). split; [auto|]. intros [Hc|Hc]; [|exact Hc]. apply HA in Hc. cbn in Hc. congruence.
    + apply (lstep_new _ _ _ _ _ _ _ Hl) in Hy as (_ & _ & _ & _ & Hy & _). rewrite Hy. split; [discriminate|].
      intros [Hc|Hc]; [apply HA in Hc; cbn in Hc; lia|apply (i_act HI) in Hc; cbn in Hc; lia].
  - intros ev Hev. rewrite apply_length. cbn [apply hist] in Hev. apply in_app_or in Hev as [Hev|Hev]; [rewrite (HA _ Hev); lia|apply (i_act HI) in Hev; lia].
  - intros j. rewrite apply_length. unfold started. cbn [apply hist]. split.
    + intros (u & Hu). apply in_app_or in Hu as [Hu|Hu].
      * apply (@lstep_start _ _ _ _ _ _ _ _ _ _ Hl) in Hu as (-> & -> & y & ->). pose proof (i_pos HI). lia.
      * assert (started (hist s) j) as Hst by (now exists u). apply (i_start HI) in Hst. lia.
    + intros Hj. destruct (Nat.eq_dec j (length (ths s))) as [->|Hn].
      * destruct (enew e) as [y|] eqn:En; [|lia]. exists t. apply in_or_app. left. exact (proj1 (lstep_new _ _ _ _ _ _ _ Hl En)).
      * assert (1 <= j < length (ths s)) as Hj' by (destruct (enew e); lia). apply (i_start HI) in Hj' as (u & Hu). exists u. apply in_or_app. now right.
  - rewrite apply_length. pose proof (i_pos HI). lia.
  - intros u y Hy. apply apply_nth in Hy as (y0 & Ha & Hy). apply (alike_shape _ Ha). cbn [apply hist].
    destruct Hy as [(-> & _ & ->)|[(Hn & Hy)|(-> & Hy)]].
    + apply (@lstep_shape _ _ _ _ _ _ _ _ _ Hl); auto. intros j Hj. exact (Inv_ended _ HI Hj).
    + apply shape_mono. exact (i_shape HI _ Hy).
    + apply easy_shape. apply (lstep_new _ _ _ _ _ _ _ Hl) in Hy. tauto.
  - intros u y Hy. apply apply_nth in Hy as (y0 & (_ & -> & _) & Hy). cbn [apply hist].
    destruct Hy as [(-> & _ & ->)|[(Hn & Hy)|(-> & Hy)]].
    + exact (@lstep_dt _ _ _ _ _ _ _ _ _ Hl HS HD).
    + rewrite in_dtor_app_other; [exact (i_dt HI _ Hy)|]. intros ev Hev Hc. apply HA in Hev. congruence.
    + apply (lstep_new _ _ _ _ _ _ _ Hl) in Hy as (_ & Hy & _). rewrite (easy_dt Hy).
      assert (Hlate : forall h, (forall ev, In ev h -> actor ev < length (ths s)) -> in_dtor (length (ths s)) h = false).
      { intros h Hh. rewrite <- (app_nil_r h). rewrite in_dtor_app_other; [reflexivity|]. intros ev Hev Hc. apply Hh in Hev. lia. }
      apply Hlate. intros ev Hev. apply in_app_or in Hev as [Hev|Hev]; [rewrite (HA _ Hev); exact Ht|exact (i_act HI _ Hev)].
  - intros u y Hy. apply apply_nth in Hy as (y0 & (E1 & E2 & E3 & _) & Hy). unfold unwok. rewrite E1, E2, E3. fold (unwok y0).
    destruct Hy as [(-> & _ & ->)|[(Hn & Hy)|(-> & Hy)]].
    + exact (@lstep_unwok _ _ _ _ _ _ _ _ _ Hl HS HU).
    + exact (i_unw HI _ Hy).
    + apply (lstep_new _ _ _ _ _ _ _ Hl) in Hy as (_ & _ & Hy & _). unfold unwok. rewrite Hy. discriminate.
Qed.
Lemma Inv_reach v3 main nb s : reach v3 main nb s -> Inv s.
Proof. induction 1 as [|s t ch s' Hr IH Hs]; [apply Inv_init|exact (Inv_step _ _ _ IH Hs)]. Qed.
