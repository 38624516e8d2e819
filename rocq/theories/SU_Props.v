(** * Theorems about the parsing of /proc/cpuinfo (C64, C68) *)
From Verif Require Import SU_Model SU_Spec SU_Proofs.
Set Implicit Arguments.

(** C64: string_to_unsigned succeeds exactly on decimal numbers that fit, with their value: for strings without a NUL byte. *)
Theorem string_to_unsigned_exact_partial (s : str) (n : Z) :
  ~ In 0 s -> (string_to_unsigned s = (true, n) <-> decimal s n /\ n <= UINT_MAX).
Proof. exact (@stu_spec s n). Qed.
Print Assumptions string_to_unsigned_exact_partial.
Example stu_max : string_to_unsigned [52; 50; 57; 52; 57; 54; 55; 50; 57; 53] = (true, 4294967295) /\ fst (string_to_unsigned [52; 50; 57; 52; 57; 54; 55; 50; 57; 54]) = false.
Proof. split; reflexivity. Qed.
Example stu_dec : decimal [48; 52; 50] 42.
Proof. split; [discriminate|]. split; [|reflexivity]. repeat constructor; discriminate. Qed.

(** With a NUL byte it does not: what comes after it is ignored, and nothing before it counts as 0. *)
Theorem string_to_unsigned_exact_refuted (a b : str) :
  ~ In 0 a -> string_to_unsigned (a ++ 0 :: b) = match a with [] => (true, 0) | _ => string_to_unsigned a end.
Proof.
  intros H. destruct a as [|ch a]; [reflexivity|]. unfold string_to_unsigned. change ((ch :: a) ++ 0 :: b) with (ch :: a ++ 0 :: b).
  exact (@stu_nul (ch :: a) b 0 H).
Qed.
Print Assumptions string_to_unsigned_exact_refuted.
Example stu_nul_witness : exists s n, string_to_unsigned s = (true, n) /\ ~ decimal s n.
Proof.
  exists [55; 0; 120], 7. split; [reflexivity|]. intros (_ & Hd & _). inversion Hd as [|? ? _ H2]; subst. inversion H2 as [|? ? H3 _]; subst. unfold digit in H3. lia.
Qed.

(** C68: on a file that gives every processor's package and core, physical_concurrency is the number of distinct
    (package, core) pairs, whatever other lines there are. *)
Theorem physical_concurrency_counts (l : list (Z * Z)) (lines : list str) (hw : nat) :
  cpuinfo l lines -> l <> [] -> distinct l (physical_concurrency lines hw).
Proof.
  intros H Hl. destruct (loop_cpuinfo H (0, 0) hw (NoDup_nil _)) as (d & Nd & Id & Ed). exists d. split; [exact Nd|]. split.
  - intros x. rewrite Id. simpl. tauto.
  - unfold physical_concurrency. rewrite Ed. destruct d as [|x d]; [|reflexivity].
    destruct l as [|y l]; [congruence|]. exfalso. apply (Id y). simpl. auto.
Qed.
Print Assumptions physical_concurrency_counts.

(** C68: without any such line, or with a line that is neither empty nor has a colon, it is hardware_concurrency(). *)
Theorem physical_concurrency_falls_back (o rest : list str) (bad : str) (hw : nat) :
  Forall other o -> bad <> [] -> ~ In 58 bad ->
  physical_concurrency o hw = hw /\ physical_concurrency (o ++ bad :: rest) hw = hw.
Proof.
  intros Ho Hb Hc. unfold physical_concurrency. split.
  - rewrite <- (app_nil_r o), loop_other by auto. reflexivity.
  - rewrite loop_other by auto. destruct bad as [|ch bad]; [congruence|]. cbn [phys_loop].
    assert (Hs : forall s, ~ In 58 s -> split_colon s = None).
    { induction s as [|x s IH]; intros Hn; simpl; [reflexivity|]. destruct (Z.eqb_spec x 58) as [->|]; [exfalso; apply Hn; simpl; auto|].
      rewrite IH; [reflexivity|]. intros Hi. apply Hn. simpl. auto. }
    now rewrite Hs.
Qed.
Print Assumptions physical_concurrency_falls_back.

(** "physical id\t: 0", "core id\t\t: 1", and a line about something else *)
Example cpuinfo_ex : exists lines, cpuinfo [(0, 1)] lines /\ length lines = 3%nat /\ physical_concurrency lines 9 = 1%nat.
Proof.
  exists ([[120; 58; 121]; physical_id ++ [9; 58; 32; 48]; core_id ++ [9; 9; 58; 32; 49]] ++ []). split; [|split; reflexivity].
  constructor; [|constructor].
  exists [[120; 58; 121]], (physical_id ++ [9; 58; 32; 48]), [], (core_id ++ [9; 9; 58; 32; 49]), [], [48], [49].
  split; [reflexivity|]. split.
  - constructor; [|constructor]. right. exists [120], [121]. split; [reflexivity|]. split; [simpl; lia|]. split; discriminate.
  - split; [constructor|]. split; [constructor|]. split.
    { exists [], [9], [32], []. unfold blank. repeat split; repeat constructor; lia. }
    split.
    { exists [], [9; 9], [32], []. unfold blank. repeat split; repeat constructor; lia. }
    unfold decimal, digit, UINT_MAX. repeat split; try discriminate; repeat constructor; lia.
Qed.
