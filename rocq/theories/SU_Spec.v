(** * Specification of the parsing of /proc/cpuinfo *)
From Verif Require Export SU_Model.
Set Implicit Arguments.

(** [n] is written in decimal as [s]. *)
Definition digit (ch : Z) : Prop := 48 <= ch <= 57.
Fixpoint dec (v : Z) (s : str) : Z := match s with [] => v | ch :: s' => dec (v * 10 + (ch - 48)) s' end.
Definition decimal (s : str) (n : Z) : Prop := s <> [] /\ Forall digit s /\ dec 0 s = n.

Definition blank (s : str) : Prop := Forall (fun ch => ch = 32 \/ ch = 9 \/ ch = 13 \/ ch = 10) s.
(** A line "key : value" with blanks around both; the value does not begin or end with a blank. *)
Definition line_of (key value line : str) : Prop :=
  exists b1 b2 b3 b4, blank b1 /\ blank b2 /\ blank b3 /\ blank b4 /\ line = b1 ++ key ++ b2 ++ [58] ++ b3 ++ value ++ b4.

(** A line about something else: empty, or with a colon and another key before it. *)
Definition other (line : str) : Prop :=
  line = [] \/ exists k v, line = k ++ [58] ++ v /\ ~ In 58 k /\ string_trim k <> physical_id /\ string_trim k <> core_id.

(** The lines about one processor, in package [p], core [c]. *)
Definition processor (p c : Z) (lines : list str) : Prop :=
  exists o1 lp o2 lc o3 sp sc, lines = o1 ++ [lp] ++ o2 ++ [lc] ++ o3 /\
    Forall other o1 /\ Forall other o2 /\ Forall other o3 /\
    line_of physical_id sp lp /\ line_of core_id sc lc /\ decimal sp p /\ decimal sc c /\ p <= UINT_MAX /\ c <= UINT_MAX.

(** The lines of a whole file about the processors [l]. *)
Inductive cpuinfo : list (Z * Z) -> list str -> Prop :=
| ci_nil : cpuinfo [] []
| ci_cons p c ls l rest : processor p c ls -> cpuinfo l rest -> cpuinfo ((p, c) :: l) (ls ++ rest).

(** the number of distinct elements *)
Definition distinct (l : list (Z * Z)) (n : nat) : Prop :=
  exists d, NoDup d /\ (forall x, In x d <-> In x l) /\ length d = n.
