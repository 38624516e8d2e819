(** * Model of boost::thread_v2::upgrade_mutex and boost::thread_v2::shared_mutex

    Source: include/boost/thread/v2/shared_mutex.hpp:166-424 (shared_mutex), 432-1041 (upgrade_mutex).
    The two classes have the same code except that shared_mutex has no upgrade flag and no upgrade operations; it is
    the instance whose program never calls an upgrade operation.
    state_ is modelled by its three fields: the write_entered_ bit, the upgradable_entered_ bit and the reader
    count, whose largest value n_readers_ is the parameter [M] (2^31-1 or 2^30-1 in the code).
    Simplifications: the timed_*, *_for and *_until forms of an operation are one operation whose deadline may pass
    whenever its thread sleeps; a failing BOOST_ASSERT is undefined behaviour.
    The waits are interruption points here, unlike in pthread/shared_mutex.hpp: [intr] says whether the program
    interrupts threads. *)

From Verif Require Import Monitor.
From Verif Require Export SM_Model.
Set Implicit Arguments.

(** v2/shared_mutex.hpp:434-447 *)
Record v2s := MkV2 { v_we : bool; v_ug : bool; v_nr : nat }.
Definition v2_new : v2s := MkV2 false false 0.

Inductive vcv := G1 | G2.
Definition vcv_eqb (a b : vcv) : bool := match a, b with G1, G1 | G2, G2 => true | _, _ => false end.

(** got it / timed out or refused / left by thread_interrupted *)
Inductive vres := VOk | VFail | VIntr.

(** [VG2 op k]: waiting at gate2_ with the local variable num_readers = k. *)
Inductive vk := VB (op : sop) | VG1 (op : sop) | VD1 (op : sop) | VG2 (op : sop) (k : nat) | VD2 (op : sop) (k : nat) | VI.

Notation vout := (v2s * list (notif vcv) * outcome vk vcv vres)%type.
Notation vret r := (ORet vk vcv r).
Notation vubd := (OUB vk vcv vres).

Section V2.
  Variable M : nat.   (* n_readers_ *)

  (** v2/shared_mutex.hpp:449-512 *)
  Definition v_pred1 (op : sop) (s : v2s) : bool :=
    match op with
    (* no_writer_no_upgrader *)
    | SLock | STimedLock | STimedShToX | STimedShToUp => negb (v_we s) && negb (v_ug s)
    (* no_writer_no_max_readers *)
    | SLockSh | STimedLockSh | STryLockSh => negb (v_we s) && negb (v_nr s =? M)
    (* no_writer_no_upgrader_no_max_readers *)
    | SLockUp | STimedLockUp | STryLockUp => negb (v_we s) && negb (v_ug s) && negb (v_nr s =? M)
    | _ => true
    end.

  (** gate2_.wait(no_readers) *)
  Definition v_gate2 (op : sop) (k : nat) (s : v2s) : vout :=
    if v_nr s =? 0 then (s, [], vret VOk) else (s, [], OSleep vres G2 (VG2 op k)).

  (** What follows the wait at gate1_. *)
  Definition v_enter (op : sop) (s : v2s) : vout :=
    match op with
    (* 657-658, 682-690, 704-712 *)
    | SLock | STimedLock => v_gate2 op 0 (MkV2 true (v_ug s) (v_nr s))
    (* 733-735, 761-764, 779-782; 811-813, 839-842, 857-860 *)
    | SLockSh | STimedLockSh | STryLockSh => (MkV2 (v_we s) (v_ug s) (S (v_nr s)), [], vret VOk)
    | SLockUp | STimedLockUp | STryLockUp => (MkV2 (v_we s) true (S (v_nr s)), [], vret VOk)
    (* 905-908 *)
    | STimedShToX => v_gate2 op (v_nr s - 1) (MkV2 true (v_ug s) (v_nr s - 1))
    (* 960-961 *)
    | STimedShToUp => (MkV2 (v_we s) true (v_nr s), [], vret VOk)
    | _ => (s, [], vubd)
    end.

  Definition v_gate1 (op : sop) (s : v2s) : vout :=
    if v_pred1 op s then v_enter op s else (s, [], OSleep vres G1 (VG1 op)).

  Definition v_upgraded (s : v2s) : bool := negb (v_we s) && v_ug s && (0 <? v_nr s).
  Definition v_written (s : v2s) : bool := v_we s && negb (v_ug s) && (v_nr s =? 0).

  Definition vfrag (_ : nat) (_ : unit) (k : vk) (s : v2s) : vout :=
    match k with
    | VB op =>
        match op with
        (* lock 653-659; try_lock_until 674-691; timed_lock 696-713 *)
        | SLock | STimedLock
        (* lock_shared 729-736; try_lock_shared_until 753-765; timed_lock_shared 771-783 *)
        | SLockSh | STimedLockSh
        (* lock_upgrade 807-814; try_lock_upgrade_until 831-843; timed_lock_upgrade 849-861 *)
        | SLockUp | STimedLockUp => v_gate1 op s
        (* try_lock_shared 738-749; try_lock_upgrade 816-827 *)
        | STryLockSh | STryLockUp => if v_pred1 op s then v_enter op s else (s, [], vret VFail)
        (* try_lock 661-670 *)
        | STryLock =>
            if negb (v_we s) && negb (v_ug s) && (v_nr s =? 0) then (MkV2 true false 0, [], vret VOk) else (s, [], vret VFail)
        (* unlock 715-725 *)
        | SUnlock => if v_written s then (v2_new, [NAll G1], vret VOk) else (s, [], vubd)
        (* unlock_shared 786-803 *)
        | SUnlockSh =>
            if 0 <? v_nr s then
              let n := v_nr s - 1 in
              let s1 := MkV2 (v_we s) (v_ug s) n in
              if negb (v_we s) then (s1, (if n =? M - 1 then [NOne G1] else []), vret VOk)
              else (s1, (if n =? 0 then [NOne G2] else []), vret VOk)
            else (s, [], vubd)
        (* unlock_upgrade 864-876 *)
        | SUnlockUp => if v_upgraded s then (MkV2 false false (v_nr s - 1), [NAll G1], vret VOk) else (s, [], vubd)
        (* try_unlock_shared_and_lock 881-891 *)
        | STryShToX =>
            if 0 <? v_nr s then
              if negb (v_we s) && negb (v_ug s) && (v_nr s =? 1) then (MkV2 true false 0, [], vret VOk) else (s, [], vret VFail)
            else (s, [], vubd)
        (* try_unlock_shared_and_lock_until 895-917 *)
        | STimedShToX => if 0 <? v_nr s then v_gate1 op s else (s, [], vubd)
        (* unlock_and_lock_shared 921-931 *)
        | SXToSh => if v_written s then (MkV2 false false 1, [NAll G1], vret VOk) else (s, [], vubd)
        (* try_unlock_shared_and_lock_upgrade 936-946 *)
        | STryShToUp =>
            if 0 <? v_nr s then
              if negb (v_we s) && negb (v_ug s) then (MkV2 (v_we s) true (v_nr s), [], vret VOk) else (s, [], vret VFail)
            else (s, [], vubd)
        (* try_unlock_shared_and_lock_upgrade_until 950-962 *)
        | STimedShToUp => if 0 <? v_nr s then v_gate1 op s else (s, [], vubd)
        (* unlock_upgrade_and_lock_shared 966-977 *)
        | SUpToSh => if v_upgraded s then (MkV2 (v_we s) false (v_nr s), [NAll G1], vret VOk) else (s, [], vubd)
        (* unlock_upgrade_and_lock 981-991; try_unlock_upgrade_and_lock_until 1009-1028 *)
        | SUpToX | STimedUpToX =>
            if v_upgraded s then v_gate2 op (v_nr s - 1) (MkV2 true false (v_nr s - 1)) else (s, [], vubd)
        (* try_unlock_upgrade_and_lock 993-1005 *)
        | STryUpToX =>
            if v_upgraded s then
              if v_nr s =? 1 then (MkV2 true false 0, [], vret VOk) else (s, [], vret VFail)
            else (s, [], vubd)
        (* unlock_and_lock_upgrade 1031-1041 *)
        | SXToUp => if v_written s then (MkV2 false true 1, [NAll G1], vret VOk) else (s, [], vubd)
        end
    | VG1 op => v_gate1 op s
    | VD1 op => if v_pred1 op s then v_enter op s else (s, [], vret VFail)
    | VG2 op k => v_gate2 op k s
    | VD2 op k =>
        if v_nr s =? 0 then (s, [], vret VOk)
        else
          match op with
          (* 686-687, 708-709 *)
          | STimedLock => (MkV2 false (v_ug s) (v_nr s), [], vret VFail)
          (* 912-914 *)
          | STimedShToX => (MkV2 false (v_ug s) (S k), [], vret VFail)
          (* 1022-1025 *)
          | STimedUpToX => (MkV2 false true (S k), [], vret VFail)
          | _ => (s, [], vubd)
          end
    (* thread_interrupted leaves the function; nothing is undone *)
    | VI => (s, [], vret VIntr)
    end.

  Definition v_timeout (k : vk) : option vk :=
    match k with
    | VG1 op => if s_timed op then Some (VD1 op) else None
    | VG2 op n => if s_timed op then Some (VD2 op n) else None
    | _ => None
    end.
  Definition v_intr (intr : bool) (k : vk) : option vk :=
    match k with VG1 _ | VG2 _ _ => if intr then Some VI else None | _ => None end.

  Definition v2prog (allow : sop -> bool) (intr : bool) : prog v2s vk sop vres vcv mode unit :=
    MkProg vcv_eqb VB vfrag v_timeout (v_intr intr)
      (fun l op => allow op && mode_eqb l (s_from op))
      (fun l op r => match r with VOk => s_to op | _ => l end).
End V2.
