(** * What a timed queue is *)

From Coq Require Import Permutation.
From Verif Require Import Monitor SQ_Model TQ_Model.
Set Implicit Arguments.

Section Spec.
  Variable V : Type.
  Notation stype := (V * Z)%type.

  Definition all_later (l : list stype) (now : Z) : Prop := forall e, In e l -> (now < snd e)%Z.

  (** [tq_step now0 now1 l closed op r l' closed']: operation [op] takes effect between the clock
      readings [now0] and [now1], on a queue holding [l] (in any order), and returns [r]. *)
  Inductive tq_step (now0 now1 : Z) (l : list stype) : bool -> top_ V -> tres V -> list stype -> bool -> Prop :=
  | ts_push op x due r :
      (op, r) = (TPush x due, TVoid) \/ (op, r) = (TTryPush x due, TSt qs_success) ->
      tq_step now0 now1 l false op r ((x, due) :: l) false
  | ts_push_closed op x due r :
      (op, r) = (TPush x due, TThrowClosed) \/ (op, r) = (TTryPush x due, TSt qs_closed) ->
      tq_step now0 now1 l true op r l true
  (* delivered: due, and nothing stored is due earlier *)
  | ts_pull op e l' cl :
      In op [TPull; TWaitPull; TTryPull; TNBPull] \/ (exists tp, op = TPullUntil tp \/ op = TPullFor tp) ->
      Permutation l (e :: l') -> (snd e <= now1)%Z -> (forall e', In e' l -> (snd e <= snd e')%Z) ->
      tq_step now0 now1 l cl op (TGot e) l' cl
  (* closed: nothing stored was due *)
  | ts_pull_closed op r :
      (op, r) = (TPull, TThrowClosed) \/
      (In op [TWaitPull; TTryPull; TNBPull] \/ (exists tp, op = TPullUntil tp \/ op = TPullFor tp)) /\ r = TSt qs_closed ->
      all_later l now0 -> tq_step now0 now1 l true op r l true
  | ts_try_empty op : In op [TTryPull; TNBPull] -> l = [] ->
      tq_step now0 now1 l false op (TSt qs_empty) l false
  | ts_try_not_ready op : In op [TTryPull; TNBPull] -> l <> [] -> all_later l now0 ->
      tq_step now0 now1 l false op (TSt qs_not_ready) l false
  | ts_timeout tp op :
      op = TPullUntil tp \/ (exists d, op = TPullFor d) -> l = [] -> (op = TPullUntil tp -> (tp <= now1)%Z) ->
      tq_step now0 now1 l false op (TSt qs_timeout) l false
  | ts_not_ready tp op :
      op = TPullUntil tp \/ (exists d, op = TPullFor d) -> l <> [] -> all_later l now0 -> (op = TPullUntil tp -> (tp <= now1)%Z) ->
      tq_step now0 now1 l false op (TSt qs_not_ready) l false
  | ts_busy cl : tq_step now0 now1 l cl TNBPull (TSt qs_busy) l cl
  | ts_intr op cl :
      In op [TPull; TWaitPull] \/ (exists tp, op = TPullUntil tp \/ op = TPullFor tp) ->
      tq_step now0 now1 l cl op TThrowIntr l cl
  | ts_close cl : tq_step now0 now1 l cl TClose TVoid l true
  | ts_closed cl : tq_step now0 now1 l cl TClosed (TBool cl) l cl
  | ts_empty cl b : (b = true <-> l = []) -> tq_step now0 now1 l cl TEmpty (TBool b) l cl
  | ts_full cl : tq_step now0 now1 l cl TFull (TBool false) l cl
  | ts_size cl : tq_step now0 now1 l cl TSize (TNat (Z.of_nat (length l) mod 2 ^ 64)%Z) l cl.

  Definition t_accepted_by (op : top_ V) (r : tres V) : list stype :=
    match op, r with
    | TPush x due, TVoid | TTryPush x due, TSt qs_success => [(x, due)]
    | _, _ => []
    end.
  Definition t_delivered_by (r : tres V) : list stype := match r with TGot e => [e] | _ => [] end.
  Fixpoint t_accepted (h : list (event (top_ V) (tres V))) : list stype :=
    match h with
    | [] => []
    | ECall _ _ _ :: h' => t_accepted h'
    | EDone _ op r :: h' => t_accepted h' ++ t_accepted_by op r
    end.
  Fixpoint t_delivered (h : list (event (top_ V) (tres V))) : list stype :=
    match h with
    | [] => []
    | ECall _ _ _ :: h' => t_delivered h'
    | EDone _ _ r :: h' => t_delivered h' ++ t_delivered_by r
    end.

  (** The time by which a sleeping thread wakes up by itself. *)
  Definition wakes_at (k : tk V) : option Z :=
    match k with TkInner _ dl => dl | TkOuter _ _ tp => Some tp | _ => None end.
End Spec.
