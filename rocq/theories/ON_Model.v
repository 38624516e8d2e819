(** * Models of boost::call_once: the atomic and the epoch-based implementation

    The callable is user code that runs outside every lock of the library; it may take
    arbitrarily long and may throw (the environment input of the fragment that ends it says so).
    Not modelled: a callable that itself calls call_once; bad_alloc while creating the
    thread-specific epoch (once.cpp:67-70). *)

From Verif Require Import Monitor.
Set Implicit Arguments.

(** What the user's callables did, newest first (ghost): thread [t] started / finished / left by an
    exception the callable it passed for flag [g]. *)
Inductive cbev := CbStart (t g : nat) | CbEnd (t g : nat) | CbThrow (t g : nat).

Inductive oop := Once (g : nat).
(** The normal return after running the callable, the normal return without running it, the exception. *)
Inductive ores := RRan | RSkip | RThrew.

(** Program points: before the unlocked first look at the flag; at the loop under the mutex; in the callable;
    after its normal end; in the catch block. *)
Inductive okp := KStart (g : nat) | KEnter (g : nat) | KBody (g : nat) | KCommit (g : nat) | KRoll (g : nat).

Definition updf (A : Type) (f : nat -> A) (g : nat) (v : A) : nat -> A := fun x => if x =? g then v else f x.

Notation oout S := (S * list (notif unit) * outcome okp unit ores)%type.
Notation oyield k := (OYield unit ores k).

(** ** src/pthread/once_atomic.cpp and pthread/once_atomic.hpp *)

(** once_atomic.cpp:24-27 *)
Inductive fstate := Uninit | InProg | Inited.

Record ostate := MkOnce { o_flag : nat -> fstate; o_log : list cbev }.

Definition ofrag (t : nat) (throws : bool) (k : okp) (s : ostate) : oout ostate :=
  match k with
  (* once_atomic.cpp:38-39: the acquire load without the mutex *)
  | KStart g =>
      match o_flag s g with
      | Inited => (s, [], ORet okp unit RSkip)
      | _ => (s, [], oyield (KEnter g))
      end
  (* once_atomic.cpp:41-66, with the mutex held; then the call in once_atomic.hpp:130-133 begins *)
  | KEnter g =>
      match o_flag s g with
      | Uninit => (MkOnce (updf (o_flag s) g InProg) (CbStart t g :: o_log s), [], oyield (KBody g))
      | Inited => (s, [], ORet okp unit RSkip)
      | InProg => (s, [], OSleep ores tt (KEnter g))
      end
  (* once_atomic.hpp:130-139: the callable ends *)
  | KBody g =>
      if throws then (MkOnce (o_flag s) (CbThrow t g :: o_log s), [], oyield (KRoll g))
      else (MkOnce (o_flag s) (CbEnd t g :: o_log s), [], oyield (KCommit g))
  (* once_atomic.cpp:70-78: the broadcast is made after unlocking *)
  | KCommit g => (MkOnce (updf (o_flag s) g Inited) (o_log s), [], OFin okp RRan [NAll tt])
  (* once_atomic.cpp:80-88 and the rethrow *)
  | KRoll g => (MkOnce (updf (o_flag s) g Uninit) (o_log s), [], OFin okp RThrew [NAll tt])
  end.

Definition onprog : prog ostate okp oop ores unit unit bool :=
  MkProg (fun _ _ => true) (fun op => let 'Once g := op in KStart g) ofrag (fun _ => None) (fun _ => None)
    (fun _ _ => true) (fun l _ _ => l).

Definition once_init : ostate := MkOnce (fun _ => Uninit) [].

(** ** pthread/once.hpp and src/pthread/once.cpp

    [e_glob]: once_global_epoch; [e_thr]: the per-thread epoch (get_once_per_thread_epoch, once.cpp:63-75);
    unsigned arithmetic modulo [W] (2^32 for uint32_t, once.hpp:41-43). *)
Record estate := MkEp { e_flag : nat -> nat; e_glob : nat; e_thr : nat -> nat; e_log : list cbev }.

Section Epoch.
  Variable W : nat.

  (** Unsigned decrement. *)
  Definition edec (x : nat) : nat := match x with 0 => W - 1 | S y => y end.

  (** once.hpp:143-171: the loop with the mutex held; [None]: sleep. *)
  Definition efrag (t : nat) (throws : bool) (k : okp) (s : estate) : oout estate :=
    match k with
    (* once.hpp:136-139 *)
    | KStart g =>
        if e_flag s g <? e_thr s t then (s, [], oyield (KEnter g)) else (s, [], ORet okp unit RSkip)
    (* once.hpp:143-148, 164-170, 172 *)
    | KEnter g =>
        if e_flag s g <=? 1 then
          if e_flag s g =? 0 then
            (MkEp (updf (e_flag s) g 1) (e_glob s) (e_thr s) (CbStart t g :: e_log s), [], oyield (KBody g))
          else (s, [], OSleep ores tt (KEnter g))
        else (MkEp (e_flag s) (e_glob s) (updf (e_thr s) t (e_glob s)) (e_log s), [], ORet okp unit RSkip)
    (* once.hpp:149-155 *)
    | KBody g =>
        if throws then (MkEp (e_flag s) (e_glob s) (e_thr s) (CbThrow t g :: e_log s), [], oyield (KRoll g))
        else (MkEp (e_flag s) (e_glob s) (e_thr s) (CbEnd t g :: e_log s), [], oyield (KCommit g))
    (* once.hpp:162-163, the loop test 143 and 172 *)
    | KCommit g =>
        let ep := edec (e_glob s) in
        let s1 := MkEp (updf (e_flag s) g ep) ep (e_thr s) (e_log s) in
        if ep <=? 1 then (s1, [NAll tt], oyield (KEnter g))
        else (MkEp (e_flag s1) ep (updf (e_thr s) t ep) (e_log s), [NAll tt], ORet okp unit RRan)
    (* once.hpp:156-161 *)
    | KRoll g => (MkEp (updf (e_flag s) g 0) (e_glob s) (e_thr s) (e_log s), [NAll tt], ORet okp unit RThrew)
    end.

  Definition epprog : prog estate okp oop ores unit unit bool :=
    MkProg (fun _ _ => true) (fun op => let 'Once g := op in KStart g) efrag (fun _ => None) (fun _ => None)
      (fun _ _ => true) (fun l _ _ => l).

  (** once.cpp:21, 72; once.hpp:66-68: BOOST_ONCE_INITIAL_FLAG_VALUE is 0. *)
  Definition ep_init : estate := MkEp (fun _ => 0) (W - 1) (fun _ => W - 1) [].
End Epoch.
