(** * Specification vocabulary for the executors

    [accepted], [begun] and [ended] record what happened: how many closures submit accepted (they are numbered in that order), which
    closures were begun and which have ended, the newest first. *)
From Coq Require Export List.
From Verif Require Export Monitor EX_Model.
Import ListNotations.

(** the closures begun so far are the first [m] accepted ones, each begun once, in the order of submission *)
Definition begun_in_order (s : ex) : Prop := exists m, m <= accepted s /\ rev (begun s) = seq 0 m.
(** thread status [x] is running the closures in the list, the innermost first *)
Definition running (x : tstat ek eop ecv unit) : list nat :=
  match x with Ready _ _ _ (KRun _ stk) => stk | _ => [] end.
(** closure [x] is being run by a thread that called operation [op] *)
Definition run_by (op : eop) (x : nat) (l : list (tstat ek eop ecv unit)) : Prop :=
  exists t u b stk, nth_error l t = Some (Ready ecv u op (KRun b stk)) /\ In x stk.
(** how often closure [x] is being run at this moment *)
Definition runs (x : nat) (l : list (tstat ek eop ecv unit)) : nat :=
  count_occ Nat.eq_dec (flat_map running l) x.
(** how many calls of submit have returned normally *)
Definition submits (h : list (event eop eres)) : nat :=
  length (filter (fun ev => match ev with EDone _ OSubmit ROk => true | _ => false end) h).
