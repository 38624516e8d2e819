(** * Model of the parsing of /proc/cpuinfo

    include/boost/thread/detail/string_to_unsigned.hpp, string_trim.hpp and thread::physical_concurrency,
    src/pthread/thread.cpp 517-575.  Strings are lists of bytes (integers 0 to 255); [unsigned] has 32 bits. *)

From Coq Require Export ZArith Lia List Bool.
Export ListNotations.
Set Implicit Arguments.
Open Scope Z_scope.

Definition str := list Z.
Definition UINT_MAX : Z := 2 ^ 32 - 1.
(** unsigned arithmetic wraps around *)
Definition wrap32 (z : Z) : Z := z mod 2 ^ 32.

(** The loop of string_to_unsigned, lines 26-51, over the C string from [p] on: it ends at the first NUL byte, whether that is the
    one that terminates c_str() ([nil]) or one inside the std::string.  Returns the result and the value left in [v]. *)
Fixpoint stu_loop (p : str) (v : Z) : bool * Z :=
  match p with
  | [] => (true, v)
  | ch :: p' =>
      if ch =? 0 then (true, v)
      else if (ch <? 48) || (57 <? ch) then (false, v)
      else if UINT_MAX / 10 <? v then (false, v)
      else
        let q := ch - 48 in
        if (v =? UINT_MAX / 10) && (UINT_MAX mod 10 <? q) then (false, v)
        else stu_loop p' (wrap32 (wrap32 (v * 10) + q))
  end.

(** string_to_unsigned, lines 17-54 *)
Definition string_to_unsigned (s : str) : bool * Z :=
  match s with [] => (false, 0) | _ => stu_loop s 0 end.

(** string_trim, string_trim.hpp 17-26: " \t\r\n" *)
Definition is_space (ch : Z) : bool := (ch =? 32) || (ch =? 9) || (ch =? 13) || (ch =? 10).
Fixpoint drop_space (s : str) : str := match s with [] => [] | ch :: s' => if is_space ch then drop_space s' else s end.
(** find_first_not_of / find_last_not_of / substr are modelled as dropping the blanks at the front and at the back. *)
Definition string_trim (s : str) : str := rev (drop_space (rev (drop_space s))).

(** line.find(':') and the two substr, thread.cpp 537-545 *)
Fixpoint split_colon (s : str) : option (str * str) :=
  match s with
  | [] => None
  | ch :: s' => if ch =? 58 then Some ([], s') else match split_colon s' with Some (k, v) => Some (ch :: k, v) | None => None end
  end.

Fixpoint str_eqb (a b : str) : bool :=
  match a, b with [], [] => true | x :: a', y :: b' => (x =? y) && str_eqb a' b' | _, _ => false end.

(** "physical id" and "core id", thread.cpp 525 *)
Definition physical_id : str := [112; 104; 121; 115; 105; 99; 97; 108; 32; 105; 100].
Definition core_id : str := [99; 111; 114; 101; 32; 105; 100].

(** std::set<core_entry>::insert *)
Definition entry_eqb (a b : Z * Z) : bool := (fst a =? fst b) && (snd a =? snd b).
Definition insert (e : Z * Z) (s : list (Z * Z)) : list (Z * Z) := if existsb (entry_eqb e) s then s else e :: s.

(** The loop of thread::physical_concurrency, thread.cpp 533-572, over the lines getline() yields; [hw] is what
    hardware_concurrency() returns. *)
Fixpoint phys_loop (lines : list str) (cur : Z * Z) (cores : list (Z * Z)) (hw : nat) : nat :=
  match lines with
  | [] => match cores with [] => hw | _ => length cores end
  | [] :: lines' => phys_loop lines' cur cores hw
  | line :: lines' =>
      match split_colon line with
      | None => hw
      | Some (k, v) =>
          let key := string_trim k in
          let value := string_trim v in
          if str_eqb key physical_id then
            match string_to_unsigned value with
            | (true, n) => phys_loop lines' (n, snd cur) cores hw
            | (false, _) => hw
            end
          else if str_eqb key core_id then
            match string_to_unsigned value with
            | (true, n) => phys_loop lines' (fst cur, n) (insert (fst cur, n) cores) hw
            | (false, _) => hw
            end
          else phys_loop lines' cur cores hw
      end
  end.

Definition physical_concurrency (lines : list str) (hw : nat) : nat := phys_loop lines (0, 0) [] hw.
