(** A reader that leaves a full thread_v2 mutex. *)
From Verif Require Import MonitorLemmas V2_Model V2_Spec V2_Inv V2_Proofs.
Import ListNotations.

Lemma leaving_full M (HM : 1 <= M) allow threads c c' t ps k0 t1 op1 l1 k1 : reachable (v2prog M allow false) threads v2_new MNone c ->
  nth_error (thr c) t = Some (Ready vcv MSh SUnlockSh k0) -> v_nr (sh c) = M -> v_we (sh c) = false ->
  nth_error (thr c) t1 = Some (Asleep l1 op1 G1 k1) -> step (v2prog M allow false) c (LRun sop t ps tt) = Some c' ->
  exists t' op l k, nth_error (thr c) t' = Some (Asleep l op G1 k) /\ nth_error (thr c') t' = Some (Ready vcv l op k).
Proof.
  intros Hr Ht Hn Hw H1 Hs. pose proof (Inv_reachable M HM allow threads c Hr) as HI.
  assert (Hk : k0 = VB SUnlockSh).
  { destruct HI as [Hst _ _]. pose proof (Forall_nth_error Hst Ht) as Hx. red in Hx. destruct Hx as (_ & _ & Hx).
    destruct k0 as [op|op|op|op k|op k|]; cbn in Hx; [now subst|..]; try (destruct Hx as [-> Hx]; try discriminate Hx; destruct Hx as [Hx _]; discriminate Hx); contradiction. }
  subst k0. cbn [step] in Hs. rewrite Ht in Hs. cbn [frag v2prog vfrag] in Hs. rewrite Hn, Hw in Hs.
  destruct (0 <? M) eqn:E0; [|apply Nat.ltb_ge in E0; lia]. cbn [negb] in Hs. rewrite Nat.eqb_refl in Hs.
  cbn [deliver_all] in Hs. destruct (deliver _ (NOne G1) (hd 0 ps) (thr c)) as [l'|] eqn:Hd; [|discriminate].
  injection Hs as <-. cbn [thr].
  destruct (deliver_one_sumw (fun _ => 0) Hd) as [[_ Hno]|(x & Hp & Ha & -> & _)].
  - exfalso. specialize (Hno _ (nth_error_In _ _ H1)). discriminate Hno.
  - destruct x as [| |l op cv k| |]; try discriminate Ha. destruct cv; [|discriminate Ha].
    exists (hd 0 ps), op, l, k. split; [exact Hp|]. rewrite nth_error_upd_other.
    + rewrite nth_error_upd_same; [reflexivity|]. apply nth_error_Some. congruence.
    + intros E. congruence.
Qed.
