(** * Proofs about the sync_timed_queue model *)

From Coq Require Import Permutation.
From Verif Require Import MonitorLemmas Settle SQ_Model SQ_Spec SQ_Proofs TQ_Model TQ_Spec.
Set Implicit Arguments.

Section TQ.
  Variable V : Type.
  Variables push_heap pop_heap : list (V * Z) -> list (V * Z).
  Variable steady : bool.
  Variable poll : Z.
  Hypothesis HC : PQ_contract (@s_lt V) push_heap pop_heap.

  Notation tq := (tq V). Notation top_ := (top_ V). Notation tres := (tres V). Notation tk := (tk V).
  Notation P := (tqprog push_heap pop_heap steady poll).
  Notation tst := (tstat tk top_ scv unit).
  Notation conf := (cfg tq tk top_ tres scv unit).
  Implicit Types (s : tq).

  Lemma s_lt_weak : strict_weak (@s_lt V).
  Proof.
    constructor; unfold s_lt; intros; rewrite ?Z.ltb_lt, ?Z.ltb_ge in *; lia.
  Qed.

  Definition blocking (op : top_) : Prop :=
    In op [TPull; TWaitPull] \/ (exists tp, op = TPullUntil tp \/ op = TPullFor tp).

  (** The deadline fits the operation. *)
  Definition dlfit (op : top_) (dl : option Z) : Prop :=
    match dl with
    | None => In op [TPull; TWaitPull]
    | Some tp => op = TPullUntil tp \/ exists d, op = TPullFor d
    end.

  Definition kfit (op : top_) (k : tk) : Prop :=
    match k with
    | TkGo op' => op' = op
    | TkTop op' dl | TkInner op' dl | TkOuter op' dl _ => op' = op /\ dlfit op dl
    | TkInnerTO op' tp => op' = op /\ dlfit op (Some tp)
    | TkIntr => blocking op
    end.

  Lemma dlfit_blocking op dl : dlfit op dl -> blocking op.
  Proof.
    destruct dl as [tp|]; simpl; intros H; [right|left; simpl; tauto].
    destruct H as [ -> |(d & ->)]; eauto.
  Qed.

  (** What a sleeper may rely on. *)
  Definition sleep_ok (k : tk) (data : list (V * Z)) : Prop :=
    match k with
    | TkInner _ _ => data = []
    | TkOuter _ _ tp => forall e, In e data -> (tp <= snd e)%Z
    | _ => False
    end.

  Definition post (op : top_) (s s' : tq) (ns : list (notif scv)) (o : outcome tk scv tres) : Prop :=
    (steady = true -> (t_now s <= t_now s')%Z) /\
    is_heap (@s_lt V) (t_data s') /\
    match o with
    | ORet _ _ r =>
        (exists now0 l', tq_step now0 (t_now s') (t_data s) (t_closed s) op r l' (t_closed s') /\
           Permutation (t_data s') l' /\ (steady = true -> (t_now s <= now0)%Z)) /\
        (ns = [NAll Cond] \/
         ns = [] /\ (forall e, In e (t_data s') -> In e (t_data s)) /\ t_closed s' = t_closed s)
    | OFin _ r ns' =>
        (exists now0 l', tq_step now0 (t_now s') (t_data s) (t_closed s) op r l' (t_closed s') /\
           Permutation (t_data s') l' /\ (steady = true -> (t_now s <= now0)%Z)) /\
        ns = [] /\ ns' = [NAll Cond]
    | OSleep _ _ k => ns = [] /\ kfit op k /\ t_data s' = t_data s /\ t_closed s' = false /\ t_closed s = false /\
                      sleep_ok k (t_data s')
    | OYield _ _ _ => False
    | OUB _ _ _ => steady = false /\ ns = [] /\ t_data s' = t_data s /\ t_closed s' = t_closed s
    end.
  Definition posto (op : top_) (s : tq) (x : tout V) : Prop := let '(s', ns, o) := x in post op s s' ns o.

  (** [s1] is [s] with a later clock. *)
  Definition later (s s1 : tq) : Prop :=
    t_data s1 = t_data s /\ t_closed s1 = t_closed s /\ (steady = true -> (t_now s <= t_now s1)%Z).

  Lemma later_refl s : later s s.
  Proof. repeat split; auto. intros _. lia. Qed.
  Lemma later_trans s1 s2 s3 : later s1 s2 -> later s2 s3 -> later s1 s3.
  Proof.
    intros (H1 & H2 & H3) (H4 & H5 & H6). repeat split; try congruence. intros H.
    specialize (H3 H); specialize (H6 H); lia.
  Qed.

  Lemma posto_later op s s1 x : later s s1 -> posto op s1 x -> posto op s x.
  Proof.
    destruct x as [[s' ns] o]. intros (H1 & H2 & H3) (P1 & P2 & P3). split; [|split].
    - intros H. specialize (P1 H); specialize (H3 H); lia.
    - exact P2.
    - rewrite H1, H2 in P3. destruct o as [r|r ns'|cv k'|k'|]; auto;
      destruct P3 as ((now0 & l' & Hst & Hp & Hn) & Hr); (split; [|auto]); exists now0, l'; repeat split; auto;
      intros H; specialize (Hn H); specialize (H3 H); lia.
  Qed.

  Lemma read_clock_later s ds now s1 ds1 :
    read_clock steady s ds = (now, s1, ds1) -> later s s1 /\ t_now s1 = now.
  Proof.
    unfold read_clock. intros [= <- <- _]. repeat split; simpl; auto. intros ->.
    destruct ds; lia.
  Qed.

  Lemma heap_min e d : is_heap (@s_lt V) (e :: d) -> forall e', In e' (e :: d) -> (snd e <= snd e')%Z.
  Proof.
    intros Hh e' Hi. apply In_nth_error in Hi as (i & Hi).
    pose proof (heap_head s_lt_weak Hh _ Hi) as H. unfold s_lt in H. apply Z.ltb_ge in H. exact H.
  Qed.

  Lemma reached_spec s ds b s1 ds1 :
    reached steady s ds = (b, s1, ds1) -> is_heap (@s_lt V) (t_data s) ->
    later s s1 /\
    (b = true -> exists e d, t_data s = e :: d /\ (snd e <= t_now s1)%Z) /\
    (b = false -> all_later (t_data s) (t_now s1)).
  Proof.
    intros H Hh. unfold reached in H. destruct (t_data s) as [|e d] eqn:Hd.
    - injection H as <- <- _. split; [apply later_refl|split; [discriminate|]]. intros _ e [].
    - destruct (read_clock steady s ds) as [[now s2] ds2] eqn:Hr. injection H as <- <- _.
      apply read_clock_later in Hr as (Hl & Hn). split; auto. split.
      + intros Hb. apply Z.leb_le in Hb. exists e, d. rewrite Hn. auto.
      + intros Hb e' He'. apply Z.leb_gt in Hb. pose proof (heap_min Hh He'). lia.
  Qed.

  Lemma t_pull_post op s e d :
    is_heap (@s_lt V) (t_data s) -> t_data s = e :: d -> (snd e <= t_now s)%Z ->
    In op [TPull; TWaitPull; TTryPull; TNBPull] \/ (exists tp, op = TPullUntil tp \/ op = TPullFor tp) ->
    posto op s (t_pull pop_heap s).
  Proof.
    intros Hh Hd Hdue Hop. unfold t_pull. rewrite Hd. simpl. rewrite Hd in Hh.
    destruct (pop_heap_ok HC Hh) as (l' & He & Hp & Hh').
    unfold pq_pop. rewrite He, removelast_last. unfold post; simpl.
    split; [intros _; lia|]. split; [exact Hh'|].
    split.
    - exists (t_now s), l'. repeat split; auto; [|intros _; lia].
      apply ts_pull; auto.
      + rewrite Hd. constructor. symmetry. exact Hp.
      + intros e' Hi. apply (heap_min Hh). rewrite <- Hd. exact Hi.
    - right. repeat split; auto. intros e' Hi. rewrite Hd. right. eapply Permutation_in; eauto.
  Qed.

  Lemma past_spec dl s ds p s1 ds1 :
    past steady dl s ds = (p, s1, ds1) ->
    later s s1 /\
    (p = true -> exists tp, dl = Some tp /\ (tp <= t_now s1)%Z) /\
    (p = false -> steady = true -> forall tp, dl = Some tp -> (t_now s < tp)%Z).
  Proof.
    intros H. unfold past in H. destruct dl as [tp|].
    - destruct (read_clock steady s ds) as [[now s2] ds2] eqn:Hr. injection H as <- <- _.
      apply read_clock_later in Hr as (Hl & Hn). split; auto. split.
      + intros Hb. apply Z.leb_le in Hb. exists tp. rewrite Hn. auto.
      + intros Hb Hs tp' [= <-]. apply Z.leb_gt in Hb. destruct Hl as (_ & _ & Hl). specialize (Hl Hs). lia.
    - injection H as <- <- _. split; [apply later_refl|]. split; [discriminate|]. intros _ _ tp Htp. discriminate.
  Qed.

  Lemma checks_post op dl s ds (k : tq -> list Z -> tout V) :
    is_heap (@s_lt V) (t_data s) -> dlfit op dl ->
    (forall s2 ds2, later s s2 -> t_closed s2 = false ->
       (steady = true -> forall tp, dl = Some tp -> (t_now s < tp)%Z) -> posto op s2 (k s2 ds2)) ->
    posto op s (checks pop_heap steady op dl s ds k).
  Proof.
    intros Hh Hdl Hk. unfold checks.
    destruct (reached steady s ds) as [[b s1] ds1] eqn:Hre.
    destruct (reached_spec _ _ Hre Hh) as (Hl & Ht & Hf). clear Hre.
    destruct b.
    - destruct (Ht eq_refl) as (e & d & Hd & Hdue). eapply posto_later; [exact Hl|].
      destruct Hl as (Hd1 & _). eapply t_pull_post; rewrite ?Hd1; eauto.
      destruct (dlfit_blocking _ _ Hdl) as [[H|[H|[]]]|H]; simpl; eauto.
    - specialize (Hf eq_refl). destruct (t_closed s1) eqn:Hc.
      + simpl. unfold post. split; [apply Hl|]. split; [destruct Hl as (-> & _); auto|].
        destruct Hl as (Hd1 & Hc1 & Hn1). split.
        * exists (t_now s1), (t_data s). rewrite <- Hc1, Hd1. rewrite Hc. split; [|split; auto].
          apply ts_pull_closed; auto. unfold dlfit in Hdl. destruct dl as [tp|].
          -- right. destruct Hdl as [ -> |(d & ->)]; simpl; split; eauto.
          -- destruct Hdl as [ <- |[ <- |[]]]; simpl; auto 6.
        * right. rewrite Hd1. repeat split; auto.
      + destruct (past steady dl s1 ds1) as [[p s2] ds2] eqn:Hp.
        destruct (past_spec _ _ _ Hp) as (Hl2 & Hpt & Hpf). clear Hp.
        destruct p.
        * destruct (Hpt eq_refl) as (tp & -> & Htp). simpl. unfold post.
          pose proof (later_trans Hl Hl2) as Hl3.
          split; [apply Hl3|]. destruct Hl3 as (Hd3 & Hc3 & Hn3). split; [rewrite Hd3; auto|].
          destruct Hl as (Hd1 & Hc1 & Hn1). destruct Hl2 as (Hd2 & Hc2 & Hn2). split.
          -- exists (t_now s1), (t_data s). rewrite Hc3, Hd3. rewrite <- Hc1, Hc. repeat split; auto.
             unfold past_res. rewrite Hd3. simpl in Hdl. destruct (t_data s) eqn:Hds.
             ++ eapply ts_timeout; eauto.
             ++ eapply ts_not_ready; eauto. discriminate.
          -- right. rewrite Hd3. repeat split; auto.
        * eapply posto_later; [exact (later_trans Hl Hl2)|]. apply Hk.
          -- exact (later_trans Hl Hl2).
          -- destruct Hl2 as (_ & -> & _). exact Hc.
          -- intros Hs tp Htp. specialize (Hpf eq_refl Hs tp Htp). destruct Hl as (_ & _ & Hn). specialize (Hn Hs). lia.
  Qed.

  Lemma outer_post op dl s ds :
    is_heap (@s_lt V) (t_data s) -> dlfit op dl -> t_closed s = false ->
    t_data s <> [] \/ steady = false -> posto op s (outer_wait steady poll op dl s ds).
  Proof.
    intros Hh Hdl Hc Hne. unfold outer_wait. destruct (t_data s) as [|e d] eqn:Hd.
    - destruct Hne as [Hne|Hne]; [congruence|]. unfold tub, posto, post. rewrite Hd. repeat split; auto. intros _; lia.
    - assert (G : forall lim s1, later s s1 -> (lim <= snd e)%Z ->
         posto op s (s1, [], OSleep tres Cond (TkOuter op dl (match dl with None => lim | Some tp => Z.min tp lim end)))).
      { intros lim s1 (Hd1 & Hc1 & Hn1) Hlim. unfold posto, post. rewrite Hd1, Hd. repeat split; auto; try congruence.
        intros e' Hi. pose proof (heap_min Hh Hi). destruct dl; lia. }
      destruct steady eqn:Hst.
      + apply G; [apply later_refl|lia].
      + destruct (read_clock false s ds) as [[now s1] ds1] eqn:Hr. apply G; [|lia].
        unfold read_clock in Hr. injection Hr as <- <- _. repeat split; auto. rewrite Hst. discriminate.
  Qed.

  Lemma part2_post op dl s ds :
    is_heap (@s_lt V) (t_data s) -> dlfit op dl ->
    t_data s <> [] \/ t_closed s = true \/ steady = false \/ (exists tp, dl = Some tp /\ (tp <= t_now s)%Z) ->
    posto op s (part2 pop_heap steady poll op dl s ds).
  Proof.
    intros Hh Hdl Hor. apply checks_post; auto. intros s2 ds2 (Hd & Hc & Hn) Hcl Hp.
    apply outer_post; auto.
    - rewrite Hd; auto.
    - rewrite Hd. destruct Hor as [H|[H|[H|(tp & -> & Htp)]]]; auto; [congruence|].
      destruct steady; auto. specialize (Hp eq_refl tp eq_refl). lia.
  Qed.

  Lemma inner_post op dl s ds :
    is_heap (@s_lt V) (t_data s) -> dlfit op dl -> posto op s (inner_wait pop_heap steady poll op dl s ds).
  Proof.
    intros Hh Hdl. unfold inner_wait. destruct (t_data s) as [|e d] eqn:Hd.
    - destruct (t_closed s) eqn:Hc.
      + apply part2_post; auto. rewrite Hd; auto.
      + unfold posto, post. rewrite Hd. repeat split; auto. intros _; lia.
    - apply part2_post; rewrite ?Hd; auto. left; discriminate.
  Qed.

  Lemma loop_post op dl s ds :
    is_heap (@s_lt V) (t_data s) -> dlfit op dl -> posto op s (loop_top pop_heap steady poll op dl s ds).
  Proof.
    intros Hh Hdl. apply checks_post; auto. intros s2 ds2 (Hd & _) _ _.
    apply inner_post; auto. rewrite Hd; auto.
  Qed.

  Lemma try_pull_post op s ds :
    is_heap (@s_lt V) (t_data s) -> In op [TTryPull; TNBPull] -> posto op s (t_try_pull pop_heap steady s ds).
  Proof.
    intros Hh Hop. unfold t_try_pull.
    destruct (reached steady s ds) as [[b s1] ds1] eqn:Hre.
    destruct (reached_spec _ _ Hre Hh) as (Hl & Ht & Hf). clear Hre.
    destruct b.
    - destruct (Ht eq_refl) as (e & d & Hd & Hdue). eapply posto_later; [exact Hl|].
      destruct Hl as (Hd1 & _). eapply t_pull_post; rewrite ?Hd1; eauto. simpl in *. tauto.
    - specialize (Hf eq_refl). destruct Hl as (Hd1 & Hc1 & Hn1). destruct (t_closed s1) eqn:Hc.
      + unfold tret, posto, post. rewrite Hd1. split; [auto|]. split; [auto|]. split.
        * exists (t_now s1), (t_data s). rewrite Hc, <- Hc1. repeat split; auto.
          apply ts_pull_closed; auto. right. split; auto. left. simpl in *; tauto.
        * right; repeat split; auto. congruence.
      + unfold tret, posto, post. rewrite Hd1. split; [auto|]. split; [auto|]. split.
        * exists (t_now s1), (t_data s). rewrite Hc, <- Hc1. repeat split; auto.
          destruct (t_data s) eqn:Hd.
          -- apply ts_try_empty; auto.
          -- apply ts_try_not_ready; auto. discriminate.
        * right; repeat split; auto. congruence.
  Qed.

  Lemma push_post op s x due ok cl :
    is_heap (@s_lt V) (t_data s) ->
    (op = TPush x due /\ ok = TVoid /\ cl = TThrowClosed) \/
    (op = TTryPush x due /\ ok = TSt qs_success /\ cl = TSt qs_closed) ->
    posto op s (t_push push_heap s x due ok cl).
  Proof.
    intros Hh Hop. unfold t_push. destruct (t_closed s) eqn:Hc.
    - unfold tret, posto, post. split; [intros _; lia|]. split; auto. split; auto.
      exists (t_now s), (t_data s). rewrite Hc. repeat split; auto; [|intros _; lia].
      apply ts_push_closed with (x := x) (due := due).
      destruct Hop as [(-> & -> & ->)|(-> & -> & ->)]; auto.
    - destruct (push_heap_ok HC (x, due) Hh) as (H1 & H2). unfold posto, post; simpl.
      split; [intros _; lia|]. split; auto. split; auto.
      exists (t_now s), ((x, due) :: t_data s). rewrite Hc. repeat split; auto; [| |intros _; lia].
      + apply ts_push. destruct Hop as [(-> & -> & ->)|(-> & -> & ->)]; auto.
      + unfold pq_push. rewrite H2. symmetry. apply Permutation_cons_append.
  Qed.

  Lemma plain_post op s r :
    is_heap (@s_lt V) (t_data s) ->
    tq_step (t_now s) (t_now s) (t_data s) (t_closed s) op r (t_data s) (t_closed s) ->
    posto op s (tret s r).
  Proof.
    intros Hh Hst. unfold tret, posto, post. split; [intros _; lia|]. split; auto. split.
    - exists (t_now s), (t_data s). repeat split; auto. intros _; lia.
    - right; auto.
  Qed.

  Lemma frag_post t e op k s :
    is_heap (@s_lt V) (t_data s) -> kfit op k -> t_pre steady tt op = true ->
    posto op s (tfrag push_heap pop_heap steady poll t e k s).
  Proof.
    intros Hh Hk Hpre. destruct e as [busy ds]. destruct k as [op'|op' dl|op' dl|op' tp|op' dl tp|]; simpl in Hk; unfold tfrag.
    - subst op'. destruct op; unfold t_op.
      + apply push_post; auto.
      + apply push_post; auto 6.
      + apply loop_post; simpl; auto.
      + apply loop_post; simpl; auto.
      + apply try_pull_post; simpl; auto.
      + destruct busy; [apply plain_post; auto; apply ts_busy|apply try_pull_post; simpl; auto].
      + apply loop_post; simpl; eauto.
      + destruct (read_clock steady s ds) as [[now s1] ds1] eqn:Hr. apply read_clock_later in Hr as (Hl & _).
        eapply posto_later; [exact Hl|]. apply loop_post; simpl; eauto. destruct Hl as (-> & _); auto.
      + unfold posto, post; simpl. split; [intros _; lia|]. split; auto. split; auto.
        exists (t_now s), (t_data s). repeat split; auto; [apply ts_close|intros _; lia].
      + apply plain_post; auto. apply ts_closed.
      + apply plain_post; auto. apply ts_empty. destruct (t_data s); split; auto; discriminate.
      + apply plain_post; auto. apply ts_full.
      + apply plain_post; auto. apply ts_size.
    - destruct Hk as (-> & Hdl). apply loop_post; auto.
    - destruct Hk as (-> & Hdl). apply inner_post; auto.
    - destruct Hk as (-> & Hdl). unfold inner_timed_out.
      destruct (read_clock steady s ds) as [[now s1] ds1] eqn:Hr. apply read_clock_later in Hr as (Hl & Hn).
      eapply posto_later; [exact Hl|]. destruct (Z.leb_spec tp now).
      + apply part2_post; auto; [destruct Hl as (-> & _); auto|]. right; right; right. exists tp; split; auto. lia.
      + apply inner_post; auto. destruct Hl as (-> & _); auto.
    - destruct Hk as (-> & Hdl). apply loop_post; auto.
    - apply plain_post; auto. apply ts_intr. exact Hk.
  Qed.

  (** ** The invariant *)
  Definition tfit (x : tst) : Prop :=
    match x with
    | Idle _ _ _ _ => True
    | Ready _ _ op k | Asleep _ op _ k => kfit op k /\ t_pre steady tt op = true
    | Tail _ _ _ ns => ns = [NAll Cond]
    | Crashed _ _ _ _ => steady = false
    end.
  Definition pendt (x : tst) : nat := match x with Tail _ _ _ _ => 1 | _ => 0 end.
  Definition sl_ok (s : tq) (x : tst) : Prop :=
    match x with Asleep _ _ _ k => sleep_ok k (t_data s) /\ t_closed s = false | _ => True end.

  Definition TInv (c : conf) : Prop :=
    Forall tfit (thr c) /\ is_heap (@s_lt V) (t_data (sh c)) /\
    (Forall (sl_ok (sh c)) (thr c) \/ 0 < sumw pendt (thr c)) /\
    Permutation (t_accepted (hist c)) (t_delivered (hist c) ++ t_data (sh c)).

  Lemma kfit_timeout op k k' : kfit op k -> t_on_timeout k = Some k' -> kfit op k'.
  Proof. destruct k as [| |op' [tp|]| | |]; simpl; try discriminate; intros H [= <-]; exact H. Qed.
  Lemma kfit_intr op k k' : kfit op k -> t_on_intr k = Some k' -> kfit op k'.
  Proof.
    destruct k; simpl; try discriminate; intros (_ & H) [= <-]; simpl; eauto using dlfit_blocking.
    exact (dlfit_blocking op (Some tp) H).
  Qed.

  Lemma wake_tfit x : is_asleep x = true -> tfit x -> tfit (wake x).
  Proof. destruct x; simpl; auto. Qed.

  Lemma wake_all_slok s (l : list tst) : Forall (sl_ok s) (map (wake_if P Cond) l).
  Proof.
    apply Forall_map. apply Forall_forall. intros [| |? ? [] ?| |] _; simpl; auto.
  Qed.

  Lemma wake_all_tfit (l : list tst) : Forall tfit l -> Forall tfit (map (wake_if P Cond) l).
  Proof.
    intros H. apply Forall_map. eapply Forall_impl; [|exact H]. intros [| |? ? [] ?| |]; simpl; auto.
  Qed.

  Lemma ad_step now0 now1 (l : list (V * Z)) cl (op : top_) (r : tres) l' cl' t (h : list (event top_ tres)) :
    tq_step now0 now1 l cl op r l' cl' ->
    Permutation (t_accepted h) (t_delivered h ++ l) ->
    Permutation (t_accepted (EDone t op r :: h)) (t_delivered (EDone t op r :: h) ++ l').
  Proof.
    intros Hst Hp. simpl. rewrite Hp. inversion Hst; subst; simpl;
        repeat match goal with
        | H : _ \/ _ |- _ => destruct H
        | H : _ /\ _ |- _ => destruct H
        | H : In _ _ |- _ => simpl in H
        | H : False |- _ => contradiction
        | H : exists _, _ |- _ => destruct H
        | H : (_, _) = (_, _) |- _ => injection H as -> ->
        end; subst; simpl; rewrite ?app_nil_r, <- ?app_assoc; simpl; auto;
      try (apply Permutation_app_head; symmetry; apply Permutation_cons_append);
      try (apply Permutation_app_head; assumption).
  Qed.

  Lemma TInv_step c c' : TInv c -> stepcase P c c' -> TInv c'.
  Proof.
    intros (HT & HH & HS & HP) Hs.
    destruct Hs as
     [t l op Ht Hp ->|t ps e l op k s' ns o thr' Ht Hfr Hd ->|t p l n ns thr' Ht Hd ->
     |t l op cv k Ht ->|t l op cv k k' Ht Hk ->|t l op cv k k' Ht Hk ->|t l op k k' Ht Hk ->];
    unfold TInv; simpl in *; pose proof (Forall_nth_error HT Ht) as Hx; simpl in Hx.
    - split; [apply Forall_upd; simpl; auto|]. split; [auto|]. split; [|exact HP].
      destruct HS as [HS|HS]; [left; apply Forall_upd; simpl; auto|right].
      pose proof (sumw_upd pendt (Ready scv l op (TkGo op)) Ht) as E. simpl in E. lia.
    - destruct Hx as (Hk & Hpre). pose proof (@frag_post t e op k (sh c) HH Hk Hpre) as HF.
      rewrite Hfr in HF. destruct HF as (_ & HH' & HF).
      destruct o as [r|r ns'|cv k'|k'|]; simpl; try contradiction.
      + destruct HF as ((now0 & l' & Hst & Hperm & _) & Hns).
        split; [apply Forall_upd; simpl; auto; eapply woken_Forall; [eapply deliver_all_woken; eauto|apply wake_tfit|auto]|].
        split; [auto|]. split.
        * destruct Hns as [-> |(-> & Hsub & Hc)]; simpl in Hd; injection Hd as <-.
          -- left. apply Forall_upd; simpl; auto. apply wake_all_slok.
          -- destruct HS as [HS|HS].
             ++ left. apply Forall_upd; simpl; auto. eapply Forall_impl; [|exact HS].
                intros [| | l0 op0 cv0 k0| |]; simpl; auto. intros (Hso & Hcl). split; [|congruence].
                destruct k0; simpl in *; auto.
                destruct (t_data s') as [|e0 d0] eqn:Hd'; auto. exfalso. specialize (Hsub e0 (or_introl eq_refl)). rewrite Hso in Hsub. destruct Hsub.
             ++ right. pose proof (sumw_upd pendt (Idle tk top_ scv l) Ht) as E. simpl in E. lia.
        * rewrite Hperm. eapply ad_step with (t := t); eauto.
      + destruct HF as ((now0 & l' & Hst & Hperm & _) & -> & ->). simpl in Hd. injection Hd as <-.
        split; [apply Forall_upd; simpl; auto|]. split; [auto|]. split.
        * right. pose proof (sumw_upd pendt (Tail tk top_ l [NAll Cond]) Ht) as E. simpl in E. simpl. lia.
        * rewrite Hperm. eapply ad_step with (t := t); eauto.
      + destruct HF as (-> & Hk' & Hd' & Hc' & Hc0 & Hso). simpl in Hd. injection Hd as <-.
        split; [apply Forall_upd; simpl; auto|]. split; [auto|]. rewrite Hd'. split; [|exact HP].
        destruct HS as [HS|HS].
        * left. apply Forall_upd; simpl; auto. eapply Forall_impl; [|exact HS].
          intros [| | l0 op0 cv0 k0| |]; simpl; auto. rewrite Hd'. intuition.
        * right. pose proof (sumw_upd pendt (Asleep l op cv k') Ht) as E. simpl in E. lia.
      + split; [apply Forall_upd; simpl; [|apply HF]|].
        { eapply woken_Forall; [eapply deliver_all_woken; eauto|apply wake_tfit|auto]. }
        split; [auto|].
        destruct HF as (_ & -> & Hd' & Hc'). simpl in Hd. injection Hd as <-. rewrite Hd'. split; [|exact HP].
        destruct HS as [HS|HS].
        * left. apply Forall_upd; simpl; auto. eapply Forall_impl; [|exact HS].
          intros [| | l0 op0 cv0 k0| |]; simpl; auto. rewrite Hd', Hc'. auto.
        * right. pose proof (sumw_upd pendt (Crashed tk top_ scv unit) Ht) as E. simpl in E. lia.
    - subst. injection Hx as -> ->. simpl in Hd. injection Hd as <-. simpl.
      split; [apply Forall_upd; simpl; auto; apply wake_all_tfit; auto|].
      split; [auto|]. split; [|exact HP]. left. apply Forall_upd; simpl; auto. apply wake_all_slok.
    - split; [apply Forall_upd; simpl; auto|]. split; [auto|]. split; [|exact HP].
      destruct HS as [HS|HS]; [left; apply Forall_upd; simpl; auto|right].
      pose proof (sumw_upd pendt (Ready scv l op k) Ht) as E. simpl in E. lia.
    - split; [apply Forall_upd; simpl; auto; destruct Hx; eauto using kfit_timeout|]. split; [auto|]. split; [|exact HP].
      destruct HS as [HS|HS]; [left; apply Forall_upd; simpl; auto|right].
      pose proof (sumw_upd pendt (Ready scv l op k') Ht) as E. simpl in E. lia.
    - split; [apply Forall_upd; simpl; auto; destruct Hx; eauto using kfit_intr|]. split; [auto|]. split; [|exact HP].
      destruct HS as [HS|HS]; [left; apply Forall_upd; simpl; auto|right].
      pose proof (sumw_upd pendt (Ready scv l op k') Ht) as E. simpl in E. lia.
    - split; [apply Forall_upd; simpl; auto; destruct Hx; eauto using kfit_intr|]. split; [auto|]. split; [|exact HP].
      destruct HS as [HS|HS]; [left; apply Forall_upd; simpl; auto|right].
      pose proof (sumw_upd pendt (Ready scv l op k') Ht) as E. simpl in E. lia.
  Qed.
  Lemma TInv_reachable n now c : reachable P n (tq_new V now) tt c -> TInv c.
  Proof.
    apply reachable_inv with (Inv := TInv); [|apply TInv_step].
    split; [apply Forall_forall; intros x Hx; apply repeat_spec in Hx; subst; exact I|].
    split; [intros i x y Hx; destruct i; discriminate|]. split; [left|reflexivity].
    apply Forall_forall; intros x Hx; apply repeat_spec in Hx; subst; exact I.
  Qed.

  (** What the completion of an operation does. *)
  Lemma tq_done n now c c' lb t op r :
    reachable P n (tq_new V now) tt c -> step P c lb = Some c' -> hist c' = EDone t op r :: hist c ->
    exists now0 l', tq_step now0 (t_now (sh c')) (t_data (sh c)) (t_closed (sh c)) op r l' (t_closed (sh c')) /\
      Permutation (t_data (sh c')) l' /\ (steady = true -> (t_now (sh c) <= now0)%Z).
  Proof.
    intros Hr Hs Hh. destruct (TInv_reachable Hr) as (HT & HH & _). apply step_inv in Hs.
    assert (Hne : forall x (h : list (event top_ tres)), h <> x :: h).
    { intros x h E. apply (f_equal (@length _)) in E. simpl in E. lia. }
    destruct Hs as
     [t' l op' Ht Hp ->|t' ps e l op' k s' ns o thr' Ht Hfr Hd ->|t' p l m ns thr' Ht Hd ->
     |t' l op' cv k Ht ->|t' l op' cv k k' Ht Hk ->|t' l op' cv k k' Ht Hk ->|t' l op' k k' Ht Hk ->];
    simpl in *; try (exfalso; exact (Hne _ _ Hh)); try discriminate.
    pose proof (Forall_nth_error HT Ht) as (Hk & Hpre). pose proof (@frag_post t' e op' k (sh c) HH Hk Hpre) as HF.
    rewrite Hfr in HF. destruct HF as (_ & _ & HF).
    destruct o as [r'|r' ns'|cv k'|k'|]; simpl in Hh; try (exfalso; exact (Hne _ _ Hh));
    injection Hh as -> -> ->; exact (proj1 HF).
  Qed.

  Lemma tq_no_crash n now c : steady = true -> reachable P n (tq_new V now) tt c ->
    ~ In (Crashed tk top_ scv unit) (thr c).
  Proof.
    intros Hst Hr Hi. destruct (TInv_reachable Hr) as (HT & _). rewrite Forall_forall in HT.
    specialize (HT _ Hi). simpl in HT. congruence.
  Qed.

  Lemma tq_sleepers n now c l op cv k :
    reachable P n (tq_new V now) tt c -> quiescent c -> In (Asleep l op cv k) (thr c) ->
    sleep_ok k (t_data (sh c)) /\ t_closed (sh c) = false.
  Proof.
    intros Hr Hq Hi. destruct (TInv_reachable Hr) as (_ & _ & [HS|HS] & _).
    - rewrite Forall_forall in HS. exact (HS _ Hi).
    - exfalso. apply sumw_pos in HS as (i & x & Hx & Hp). apply nth_error_In in Hx.
      unfold quiescent in Hq. rewrite forallb_forall in Hq. apply Hq in Hx. destruct x; simpl in *; try discriminate; lia.
  Qed.

  (** Steps that complete nothing leave the contents alone. *)
  Lemma tq_quiet n now c c' lb :
    reachable P n (tq_new V now) tt c -> step P c lb = Some c' ->
    t_data (sh c') = t_data (sh c) /\ t_closed (sh c') = t_closed (sh c) \/
    exists t op r, hist c' = EDone t op r :: hist c.
  Proof.
    intros Hr Hs. destruct (TInv_reachable Hr) as (HT & HH & _). apply step_inv in Hs.
    destruct Hs as
     [t' l op' Ht Hp ->|t' ps e l op' k s' ns o thr' Ht Hfr Hd ->|t' p l m ns thr' Ht Hd ->
     |t' l op' cv k Ht ->|t' l op' cv k k' Ht Hk ->|t' l op' cv k k' Ht Hk ->|t' l op' k k' Ht Hk ->];
    simpl in *; auto.
    pose proof (Forall_nth_error HT Ht) as (Hk & Hpre). pose proof (@frag_post t' e op' k (sh c) HH Hk Hpre) as HF.
    rewrite Hfr in HF. destruct HF as (_ & _ & HF).
    destruct o as [r'|r' ns'|cv k'|k'|]; simpl; eauto; left; intuition congruence.
  Qed.
  Lemma tq_direct : direct P.
  Proof.
    intros t [busy ds] k s s' ns o Hf.
    set (good := fun x : tout V => let '(_, ns, o) := x in match o with OSleep _ _ _ => ns = [] | OYield _ _ _ => False | _ => True end).
    assert (G : good (tfrag push_heap pop_heap steady poll t (busy, ds) k s)).
    { assert (Hpull : forall s, good (t_pull pop_heap s)).
      { intros s1. unfold t_pull, good. destruct (pq_pull pop_heap (t_data s1)) as [[? ?]|]; exact I. }
      assert (Hck : forall op dl s ds k, (forall s ds, good (k s ds)) -> good (checks pop_heap steady op dl s ds k)).
      { intros op dl s1 ds1 k1 Hk. unfold checks. destruct (reached steady s1 ds1) as [[b s2] ds2].
        destruct b; [apply Hpull|]. destruct (t_closed s2); [exact I|].
        destruct (past steady dl s2 ds2) as [[p s3] ds3]. destruct p; [exact I|apply Hk]. }
      assert (Hout : forall op dl s ds, good (outer_wait steady poll op dl s ds)).
      { intros op dl s1 ds1. unfold outer_wait. destruct (t_data s1); [exact I|].
        destruct (if steady then _ else _) as [lim s2]. reflexivity. }
      assert (Hp2 : forall op dl s ds, good (part2 pop_heap steady poll op dl s ds)).
      { intros. apply Hck. intros. apply Hout. }
      assert (Hin : forall op dl s ds, good (inner_wait pop_heap steady poll op dl s ds)).
      { intros. unfold inner_wait. destruct (t_data s0); [destruct (t_closed s0)|]; try apply Hp2. reflexivity. }
      assert (Hlt : forall op dl s ds, good (loop_top pop_heap steady poll op dl s ds)).
      { intros. apply Hck. intros. apply Hin. }
      assert (Htp : forall s ds, good (t_try_pull pop_heap steady s ds)).
      { intros s1 ds1. unfold t_try_pull. destruct (reached steady s1 ds1) as [[b s2] ds2].
        destruct b; [apply Hpull|]. destruct (t_closed s2); exact I. }
      destruct k as [op|op dl|op dl|op tp|op dl tp|]; unfold tfrag; auto.
      - destruct op; unfold t_op; auto; try exact I; try (unfold t_push; destruct (t_closed s); exact I).
        + destruct busy; [exact I|apply Htp].
        + destruct (read_clock steady s ds) as [[? ?] ?]. apply Hlt.
      - unfold inner_timed_out. destruct (read_clock steady s ds) as [[now s1] ds1]. destruct (tp <=? now)%Z; auto.
      - exact I. }
    cbn [frag tqprog] in Hf. rewrite Hf in G. unfold good in G. destruct o; auto.
  Qed.

  (** ** A due element is delivered *)
  Lemma reached_due s ds e :
    steady = true -> is_heap (@s_lt V) (t_data s) -> In e (t_data s) -> (snd e <= t_now s)%Z ->
    exists s1 ds1 e0 d, reached steady s ds = (true, s1, ds1) /\ t_data s1 = e0 :: d.
  Proof.
    intros Hst Hh Hi Hd. unfold reached. destruct (t_data s) as [|e0 d] eqn:Hds; [destruct Hi|].
    pose proof (heap_min Hh Hi) as Hm.
    destruct (read_clock steady s ds) as [[now s1] ds1] eqn:Hr.
    pose proof (read_clock_later Hr) as ((Hl1 & _ & Hl3) & Hn). specialize (Hl3 Hst).
    exists s1, ds1, e0, d. split; [|congruence]. f_equal. f_equal. apply Z.leb_le. lia.
  Qed.
  Definition gets (x : tout V) : Prop := exists s' e, x = (s', [], ORet tk scv (TGot e)).
  Lemma pull_gets s e0 d : t_data s = e0 :: d -> gets (t_pull pop_heap s).
  Proof. intros H. unfold t_pull. rewrite H. simpl. eexists. eexists. reflexivity. Qed.
  Lemma checks_gets op dl s ds k e :
    steady = true -> is_heap (@s_lt V) (t_data s) -> In e (t_data s) -> (snd e <= t_now s)%Z ->
    gets (checks pop_heap steady op dl s ds k).
  Proof.
    intros Hst Hh Hi Hd. destruct (@reached_due s ds e Hst Hh Hi Hd) as (s1 & ds1 & e0 & d & Hre & Hd1).
    unfold checks. rewrite Hre. eapply pull_gets; eauto.
  Qed.
  Lemma inner_gets op dl s ds e :
    steady = true -> is_heap (@s_lt V) (t_data s) -> In e (t_data s) -> (snd e <= t_now s)%Z ->
    gets (inner_wait pop_heap steady poll op dl s ds).
  Proof.
    intros Hst Hh Hi Hd. unfold inner_wait. destruct (t_data s) eqn:E; [destruct Hi|]. 
    eapply checks_gets; rewrite ?E; eauto.
  Qed.
  Lemma try_gets s ds e :
    steady = true -> is_heap (@s_lt V) (t_data s) -> In e (t_data s) -> (snd e <= t_now s)%Z ->
    gets (t_try_pull pop_heap steady s ds).
  Proof.
    intros Hst Hh Hi Hd. destruct (@reached_due s ds e Hst Hh Hi Hd) as (s1 & ds1 & e0 & d & Hre & Hd1).
    unfold t_try_pull. rewrite Hre. eapply pull_gets; eauto.
  Qed.

  Lemma due_delivered n now c c' t l op k ps ds e :
    steady = true -> reachable P n (tq_new V now) tt c ->
    In op [TPull; TWaitPull; TTryPull; TNBPull] \/ (exists tp, op = TPullUntil tp \/ op = TPullFor tp) ->
    nth_error (thr c) t = Some (Ready scv l op k) -> k <> TkIntr ->
    In e (t_data (sh c)) -> (snd e <= t_now (sh c))%Z ->
    step P c (LRun _ t ps (false, ds)) = Some c' ->
    exists e', hist c' = EDone t op (TGot e') :: hist c.
  Proof.
    intros Hst Hr Hop Ht Hk Hi Hd Hs. destruct (TInv_reachable Hr) as (HT & HH & _).
    pose proof (Forall_nth_error HT Ht) as (Hf & _).
    assert (G : gets (tfrag push_heap pop_heap steady poll t (false, ds) k (sh c))).
    { destruct k as [op'|op' dl|op' dl|op' tp|op' dl tp|]; unfold tfrag; try congruence.
      - simpl in Hf. subst op'.
        assert (HL : forall dl, gets (loop_top pop_heap steady poll op dl (sh c) ds)) by (intros; eapply checks_gets; eauto).
        destruct op; unfold t_op; auto;
          try (eapply try_gets; eauto; fail);
          try (exfalso; destruct Hop as [[H|[H|[H|[H|[]]]]]|(tp & [H|H])]; discriminate).
        destruct (read_clock steady (sh c) ds) as [[now0 s1] ds1] eqn:Hrc.
        destruct (read_clock_later Hrc) as ((H1 & H2 & H3) & _). specialize (H3 Hst).
        eapply checks_gets; rewrite ?H1; eauto. lia.
      - eapply checks_gets; eauto.
      - eapply inner_gets; eauto.
      - unfold inner_timed_out. destruct (read_clock steady (sh c) ds) as [[now0 s1] ds1] eqn:Hrc.
        destruct (read_clock_later Hrc) as ((H1 & H2 & H3) & _). specialize (H3 Hst).
        destruct (tp <=? now0)%Z.
        + eapply checks_gets; rewrite ?H1; eauto. lia.
        + eapply inner_gets; rewrite ?H1; eauto. lia.
      - eapply checks_gets; eauto. }
    destruct G as (s' & e' & HG).
    cbn [step] in Hs. rewrite Ht in Hs. cbn [frag tqprog] in Hs. rewrite HG in Hs. simpl in Hs.
    injection Hs as <-. exists e'. reflexivity.
  Qed.

  (** ** Undefined behaviour only in pull_until *)
  Definition ub_only (op : top_) (s : tq) (x : tout V) : Prop :=
    let '(_, _, o) := x in
    match o with OUB _ _ _ => (exists tp, op = TPullUntil tp \/ op = TPullFor tp) /\ t_data s = [] /\ t_closed s = false | _ => True end.
  Lemma pull_ub op s e0 d : t_data s = e0 :: d -> ub_only op s (t_pull pop_heap s).
  Proof. intros H. unfold t_pull. rewrite H. exact I. Qed.
  Lemma ub_later op s s1 x : t_data s1 = t_data s -> t_closed s1 = t_closed s -> ub_only op s1 x -> ub_only op s x.
  Proof. intros H1 H2. destruct x as [[s' ns] o]. unfold ub_only. rewrite H1, H2. auto. Qed.
  Lemma checks_ub op dl s ds k :
    is_heap (@s_lt V) (t_data s) ->
    (forall s2 ds2, t_data s2 = t_data s -> t_closed s2 = t_closed s -> t_closed s2 = false -> ub_only op s (k s2 ds2)) ->
    ub_only op s (checks pop_heap steady op dl s ds k).
  Proof.
    intros Hh Hk. unfold checks. destruct (reached steady s ds) as [[b s1] ds1] eqn:Hre.
    destruct (reached_spec _ _ Hre Hh) as ((Hl1 & Hl2 & _) & Ht & _). destruct b.
    - destruct (Ht eq_refl) as (e & d & He & _). apply ub_later with (s1 := s1); auto.
      eapply pull_ub; rewrite Hl1; eauto.
    - destruct (t_closed s1) eqn:Hc; [exact I|].
      destruct (past steady dl s1 ds1) as [[p s2] ds2] eqn:Hp.
      destruct (past_spec _ _ _ Hp) as ((Hm1 & Hm2 & _) & _). destruct p; [exact I|].
      apply Hk; congruence.
  Qed.
  Lemma part2_ub op dl s ds :
    is_heap (@s_lt V) (t_data s) -> dlfit op dl -> t_data s <> [] \/ t_closed s = true \/ dl <> None ->
    ub_only op s (part2 pop_heap steady poll op dl s ds).
  Proof.
    intros Hh Hdl Hor. apply checks_ub; auto. intros s2 ds2 Hd Hc Hc'. unfold outer_wait. rewrite Hd.
    destruct (t_data s) as [|e d] eqn:E.
    - unfold tub, ub_only. destruct dl as [tp|]; [|destruct Hor as [H|[H|H]]; congruence].
      split; [|split; congruence]. simpl in Hdl. destruct Hdl as [->|(d & ->)]; eauto.
    - destruct (if steady then _ else _) as [lim s3]. exact I.
  Qed.
  Lemma inner_ub op dl s ds :
    is_heap (@s_lt V) (t_data s) -> dlfit op dl -> ub_only op s (inner_wait pop_heap steady poll op dl s ds).
  Proof.
    intros Hh Hdl. unfold inner_wait. destruct (t_data s) eqn:E; [destruct (t_closed s) eqn:Ec|]; try exact I;
    apply part2_ub; rewrite ?E; auto. left; discriminate.
  Qed.
  Lemma loop_ub op dl s ds :
    is_heap (@s_lt V) (t_data s) -> dlfit op dl -> ub_only op s (loop_top pop_heap steady poll op dl s ds).
  Proof.
    intros Hh Hdl. apply checks_ub; auto. intros s2 ds2 Hd Hc _. apply ub_later with (s1 := s2); auto.
    apply inner_ub; auto. rewrite Hd; auto.
  Qed.
  Lemma try_ub op s ds : is_heap (@s_lt V) (t_data s) -> ub_only op s (t_try_pull pop_heap steady s ds).
  Proof.
    intros Hh. unfold t_try_pull. destruct (reached steady s ds) as [[b s1] ds1] eqn:Hre.
    destruct (reached_spec _ _ Hre Hh) as ((Hl1 & Hl2 & _) & Ht & _). destruct b.
    - destruct (Ht eq_refl) as (e & d & He & _). apply ub_later with (s1 := s1); auto.
      eapply pull_ub; rewrite Hl1; eauto.
    - destruct (t_closed s1); exact I.
  Qed.

  Lemma crash_only_until n now c c' t ps e l op k :
    steady = false -> reachable P n (tq_new V now) tt c ->
    nth_error (thr c) t = Some (Ready scv l op k) ->
    step P c (LRun _ t ps e) = Some c' ->
    nth_error (thr c') t = Some (Crashed tk top_ scv unit) ->
    (exists tp, op = TPullUntil tp) /\ t_data (sh c) = [] /\ t_closed (sh c) = false.
  Proof.
    intros Hst Hr Ht Hs Hcr. destruct (TInv_reachable Hr) as (HT & HH & _).
    pose proof (Forall_nth_error HT Ht) as (Hf & Hpre).
    assert (G : ub_only op (sh c) (tfrag push_heap pop_heap steady poll t e k (sh c))).
    { destruct e as [busy ds]. destruct k as [op'|op' dl|op' dl|op' tp|op' dl tp|]; simpl in Hf; unfold tfrag.
      - subst op'. destruct op; unfold t_op; try exact I; try (unfold t_push; destruct (t_closed (sh c)); exact I).
        + apply loop_ub; simpl; auto.
        + apply loop_ub; simpl; auto.
        + apply try_ub; auto.
        + destruct busy; [exact I|apply try_ub; auto].
        + apply loop_ub; simpl; auto.
        + destruct (read_clock steady (sh c) ds) as [[now0 s1] ds1] eqn:Hrc.
          destruct (read_clock_later Hrc) as ((H1 & H2 & H3) & _). apply ub_later with (s1 := s1); auto.
          apply loop_ub; simpl; eauto. rewrite H1; auto.
      - destruct Hf as (-> & Hf). apply loop_ub; auto.
      - destruct Hf as (-> & Hf). apply inner_ub; auto.
      - destruct Hf as (-> & Hf). unfold inner_timed_out.
        destruct (read_clock steady (sh c) ds) as [[now0 s1] ds1] eqn:Hrc.
        destruct (read_clock_later Hrc) as ((H1 & H2 & H3) & _). apply ub_later with (s1 := s1); auto.
        destruct (tp <=? now0)%Z.
        + apply part2_ub; rewrite ?H1; auto. right; right; discriminate.
        + apply inner_ub; rewrite ?H1; auto.
      - destruct Hf as (-> & Hf). apply loop_ub; auto.
      - exact I. }
    cbn [step] in Hs. rewrite Ht in Hs. cbn [frag tqprog] in Hs.
    destruct (tfrag push_heap pop_heap steady poll t e k (sh c)) as [[s' ns] o].
    destruct (deliver_all P ns ps (thr c)) as [thr'|] eqn:Hd; [|discriminate].
    assert (Hlt : t < length thr').
    { rewrite (woken_length (deliver_all_woken Hd)). eapply nth_error_lt; eauto. }
    destruct o as [r|r ns'|cv k'|k'|]; simpl in Hs; injection Hs as <-; simpl in Hcr;
      rewrite nth_error_upd_same in Hcr by auto; try discriminate.
    - destruct ns'; discriminate.
    - simpl in G. destruct G as ((tp & [->| ->]) & H); [eauto|].
      simpl in Hpre. congruence.
  Qed.

  (** The steady clock never goes back. *)
  Lemma tq_clock n now c c' lb :
    steady = true ->
    reachable P n (tq_new V now) tt c -> step P c lb = Some c' -> (t_now (sh c) <= t_now (sh c'))%Z.
  Proof.
    intros Hst Hr Hs. destruct (TInv_reachable Hr) as (HT & HH & _). apply step_inv in Hs.
    destruct Hs as
     [t' l op' Ht Hp ->|t' ps e l op' k s' ns o thr' Ht Hfr Hd ->|t' p l m ns thr' Ht Hd ->
     |t' l op' cv k Ht ->|t' l op' cv k k' Ht Hk ->|t' l op' cv k k' Ht Hk ->|t' l op' k k' Ht Hk ->];
    simpl in *; try lia.
    pose proof (Forall_nth_error HT Ht) as (Hk & Hpre). pose proof (@frag_post t' e op' k (sh c) HH Hk Hpre) as HF.
    rewrite Hfr in HF. destruct HF as (HF & _). auto.
  Qed.
End TQ.

(** A heap of timed elements: insertion sort by due time. *)
Fixpoint ins_due (e : nat * Z) (l : list (nat * Z)) : list (nat * Z) :=
  match l with [] => [e] | y :: l' => if (snd y <? snd e)%Z then y :: ins_due e l' else e :: l end.
Definition sort_due (l : list (nat * Z)) : list (nat * Z) := fold_right ins_due [] l.
Definition pop_due (l : list (nat * Z)) : list (nat * Z) :=
  match l with [] => [] | v :: l' => sort_due l' ++ [v] end.
Lemma ins_due_perm e l : Permutation (ins_due e l) (e :: l).
Proof. induction l as [|y l IH]; simpl; auto. destruct (snd y <? snd e)%Z; auto. rewrite IH. apply perm_swap. Qed.
Lemma sort_due_perm l : Permutation (sort_due l) l.
Proof. induction l as [|y l IH]; simpl; auto. rewrite ins_due_perm. auto. Qed.
Definition asc (l : list (nat * Z)) : Prop :=
  forall i j x y, i <= j -> nth_error l i = Some x -> nth_error l j = Some y -> (snd x <= snd y)%Z.
Lemma asc_cons x l : asc (x :: l) <-> (forall y, In y l -> (snd x <= snd y)%Z) /\ asc l.
Proof.
  split.
  - intros H. split.
    + intros y Hy. apply In_nth_error in Hy as (i & Hi). apply (H 0 (S i) x y); auto. lia.
    + intros i j a b Hij Ha Hb. apply (H (S i) (S j) a b); auto. lia.
  - intros (H1 & H2) [|i] [|j] a b Hij Ha Hb; simpl in *; try lia.
    + injection Ha as <-. injection Hb as <-. lia.
    + injection Ha as <-. apply H1. eapply nth_error_In; eauto.
    + apply (H2 i j a b); auto. lia.
Qed.
Lemma ins_due_asc e l : asc l -> asc (ins_due e l).
Proof.
  induction l as [|y l IH]; intros Hd; simpl.
  - apply asc_cons. split; [intros z []|]. intros i j a b _ Ha. destruct i; discriminate.
  - destruct (Z.ltb_spec (snd y) (snd e)) as [H|H].
    + apply asc_cons in Hd as (H1 & H2). apply asc_cons. split; auto.
      intros z Hz. apply (Permutation_in _ (ins_due_perm e l)) in Hz. destruct Hz as [<-|Hz]; [lia|auto].
    + apply asc_cons. split; auto. intros z [<-|Hz]; auto. apply asc_cons in Hd as (H1 & _). apply H1 in Hz. lia.
Qed.
Lemma sort_due_asc l : asc (sort_due l).
Proof. induction l as [|y l IH]; simpl; [intros i j a b _ Ha; destruct i; discriminate|]. apply ins_due_asc; auto. Qed.
Lemma asc_heap l : asc l -> is_heap (@s_lt nat) l.
Proof.
  intros H i x y Hx Hy. unfold s_lt. apply Z.ltb_ge. apply (H (i / 2) (S i)); auto.
  pose proof (Nat.div_le_upper_bound i 2 i). lia.
Qed.
Lemma due_contract : PQ_contract (@s_lt nat) sort_due pop_due.
Proof.
  constructor.
  - intros l x _. split; [apply asc_heap, sort_due_asc|apply sort_due_perm].
  - intros v l _. exists (sort_due l). repeat split; auto; [apply sort_due_perm|apply asc_heap, sort_due_asc].
Qed.

