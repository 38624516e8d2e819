(** * Specification of the 64-bit tick count *)
From Verif Require Export GT_Model.
Set Implicit Arguments.

(** Every call of GetTickCount comes less than 2^32 ms (49.7 days) after the one for the value it is compared with *)
Definition timely (h : list event) : Prop := forall now t stamp, In (ETicks now t stamp) h -> now - stamp < W.

(** The value is the time since [base], at some moment of the call: [b] when it began, [e] when it returned.  The history is latest first; the call's beginning is
    the latest one of its thread before the return. *)
Fixpoint begun (t : nat) (h : list event) : option Z :=
  match h with
  | [] => None
  | EBegin b u :: h' => if Nat.eqb u t then Some b else begun t h'
  | _ :: h' => begun t h'
  end.
Fixpoint exact (base : Z) (h : list event) : Prop :=
  match h with
  | [] => True
  | EReturn e t v :: h' => (exists b, begun t h' = Some b /\ b - base <= v <= e - base) /\ exact base h'
  | _ :: h' => exact base h'
  end.
(** A value returned by a call that began after the return of an earlier one is not less *)
Definition never_back (h : list event) : Prop :=
  forall h1 h2 h3 e1 t1 v1 e2 t2 v2 b2, h = h1 ++ EReturn e2 t2 v2 :: h2 ++ EReturn e1 t1 v1 :: h3 -> begun t2 h2 = Some b2 -> v1 <= v2.

(** ** Bounds on the times
    No call takes longer than [D1]; when a call begins, the latest return is at most [D2] ago (the refreshes see to that); calls that began before any had returned
    call GetTickCount before it wraps around for the first time, at [wrap]. *)
Fixpoint last_return (h : list event) : option Z :=
  match h with [] => None | EReturn e _ _ :: _ => Some e | _ :: h' => last_return h' end.
(** the latest return before thread [t]'s latest call began *)
Fixpoint returned_before (t : nat) (h : list event) : option Z :=
  match h with
  | [] => None
  | EBegin _ u :: h' => if Nat.eqb u t then last_return h' else returned_before t h'
  | _ :: h' => returned_before t h'
  end.
Fixpoint prompt (D1 D2 wrap : Z) (h : list event) : Prop :=
  match h with
  | [] => True
  | EBegin b t :: h' => (forall e, last_return h' = Some e -> b - e <= D2) /\ prompt D1 D2 wrap h'
  | ETicks n t _ :: h' => (forall b, begun t h' = Some b -> n - b <= D1) /\ (returned_before t h' = None -> n < wrap) /\ prompt D1 D2 wrap h'
  | EReturn e t _ :: h' => (forall b, begun t h' = Some b -> e - b <= D1) /\ prompt D1 D2 wrap h'
  end.
(** when GetTickCount is zero: the latest time until [start], and the first after it *)
Definition base (start : Z) : Z := start - start mod W.
Definition wrap (start : Z) : Z := base start + W.
