(** * Model of call_once on Windows

    Modelled: include/boost/thread/win32/once.hpp: once_flag (53-74), int_to_string (101-114), name_once_mutex (116-131), open_once_event,
    create_once_event (133-162), once_context (164-177), enter_once_region, commit_once_region, rollback_once_region (180-226) and
    call_once (231-272; the other overloads, 274-1067, differ only in how the function is invoked).
    One flag, any number of threads; every access to the flag and every call of the Windows API is a step of its own.
    The event is a named manual-reset event: it exists while some thread has a handle to it, and all handles that exist at one time refer to the same
    object.
    Simplifications: count is unbounded (the code counts at most one per call made before the function has completed); creating the event does
    not fail; the function does not itself call call_once with the same flag. *)

From Coq Require Export List Arith Lia Bool NArith.
Export ListNotations.
Open Scope nat_scope.
Set Implicit Arguments.

(** status: 0, running_value, function_complete_flag_value *)
Inductive status := SFree | SRunning | SComplete.

(** How call_once ends: it called the function; the function had been completed by another call; the function threw. *)
Inductive res := RRan | RSkipped | RThrew.

Inductive pc :=
| PIdle
| PLoop                      (* 236: reads status *)
| PEnter                     (* 182: compare-and-exchange *)
| POpen                      (* 185-188 *)
| PReset                     (* 189-192 *)
| PBody                      (* 243: in the function *)
| PBack                      (* 217 *)
| PBackOpen                  (* 218-221 *)
| PBackSet                   (* 222-225 *)
| PCommit                    (* 199-203 *)
| PComplete                  (* 204 *)
| PMany                      (* 205-206: reads count *)
| PMake                      (* 208 *)
| PSet                       (* 210-213 *)
| PCount                     (* 254-257 *)
| PCheck                     (* 258-263: reads status *)
| PCreate                    (* 265-266 *)
| PWait                      (* 269 *)
| PClose (r : res).          (* ~once_context: closes the handle; returns or throws *)

(** once_context, 164-177 *)
Record thr := Thr { t_pc : pc; t_counted : bool; t_handle : bool }.

Inductive event := ECall (t : nat) | EStart (t : nat) | EEnd (t : nat) | EThrow (t : nat) | ERet (t : nat) (r : res).

(** The flag; whether the event is signalled (of no meaning while no thread has a handle); the threads; what happened, newest first. *)
Record sys := Sys { st : status; cnt : nat; sig : bool; thrs : list thr; hist : list event }.

Fixpoint set_thr (l : list thr) (t : nat) (x : thr) : list thr :=
  match l, t with
  | [], _ => []
  | _ :: l', 0 => x :: l'
  | y :: l', S t' => y :: set_thr l' t' x
  end.

(** The event with the name of the flag exists. *)
Definition exists_event (s : sys) : bool := existsb t_handle (thrs s).

Section Step.
Variable s : sys.
Variable t : nat.
Variable x : thr.

Definition put (y : thr) (f : status) (n : nat) (g : bool) (ev : list event) : option sys :=
  Some (Sys f n g (set_thr (thrs s) t y) (ev ++ hist s)).
Definition goto (p : pc) : option sys := put (Thr p (t_counted x) (t_handle x)) (st s) (cnt s) (sig s) [].
(** open_once_event, 133-149: null if there is none *)
Definition open (p : pc) : option sys :=
  put (Thr p (t_counted x) (if t_handle x then true else exists_event s)) (st s) (cnt s) (sig s) [].
(** create_once_event, 151-162: a handle to the event if it exists, to a new one, not signalled, otherwise *)
Definition create (p : pc) : option sys :=
  put (Thr p (t_counted x) true) (st s) (cnt s) (if exists_event s then sig s else false) [].

Definition run : option sys :=
  match t_pc x with
  | PIdle => None
  | PLoop => match st s with SComplete => goto (PClose RSkipped) | _ => goto PEnter end
  | PEnter =>
      match st s with
      | SFree => put (Thr POpen (t_counted x) (t_handle x)) SRunning (cnt s) (sig s) []
      | _ => goto (if t_counted x then PWait else PCount)
      end
  | POpen => open PReset
  | PReset => put (Thr PBody (t_counted x) (t_handle x)) (st s) (cnt s) (if t_handle x then false else sig s) [EStart t]
  | PBody => None
  | PBack => put (Thr PBackOpen (t_counted x) (t_handle x)) SFree (cnt s) (sig s) []
  | PBackOpen => open PBackSet
  | PBackSet => put (Thr (PClose RThrew) (t_counted x) (t_handle x)) (st s) (cnt s) (if t_handle x then true else sig s) []
  | PCommit =>
      if t_counted x then goto PComplete
      else put (Thr PComplete true (t_handle x)) (st s) (S (cnt s)) (sig s) []
  | PComplete => put (Thr PMany (t_counted x) (t_handle x)) SComplete (cnt s) (sig s) []
  | PMany => if negb (t_handle x) && (1 <? cnt s) then goto PMake else goto PSet
  | PMake => create PSet
  | PSet => put (Thr (PClose RRan) (t_counted x) (t_handle x)) (st s) (cnt s) (if t_handle x then true else sig s) []
  | PCount => put (Thr PCheck true (t_handle x)) (st s) (S (cnt s)) (sig s) []
  | PCheck =>
      match st s with
      | SComplete => goto (PClose RSkipped)
      | _ => if t_handle x then goto PWait else goto PCreate
      end
  | PCreate => create PLoop
  | PWait => if sig s then goto PLoop else None
  | PClose r => put (Thr PIdle false false) (st s) (cnt s) (sig s) [ERet t r]
  end.

(** call_once is called: 235 *)
Definition call : option sys :=
  match t_pc x with
  | PIdle => put (Thr PLoop false false) (st s) (cnt s) (sig s) [ECall t]
  | _ => None
  end.
(** The function returns or throws. *)
Definition finish (throws : bool) : option sys :=
  match t_pc x with
  | PBody => put (Thr (if throws then PBack else PCommit) (t_counted x) (t_handle x)) (st s) (cnt s) (sig s) [if throws then EThrow t else EEnd t]
  | _ => None
  end.
End Step.

Inductive label := LCall (t : nat) | LRun (t : nat) | LEnd (t : nat) (throws : bool).

Definition exec (s : sys) (l : label) : option sys :=
  match l with
  | LCall t => match nth_error (thrs s) t with Some x => call s t x | None => None end
  | LRun t => match nth_error (thrs s) t with Some x => run s t x | None => None end
  | LEnd t b => match nth_error (thrs s) t with Some x => finish s t x b | None => None end
  end.

(** BOOST_ONCE_INIT, 67 and 76, for a program of n threads *)
Definition init (n : nat) : sys := Sys SFree 0 false (repeat (Thr PIdle false false) n) [].

Inductive reach (n : nat) : sys -> Prop :=
| r_init : reach n (init n)
| r_step s l s' : reach n s -> exec s l = Some s' -> reach n s'.

(** The execution of a list of labels *)
Fixpoint runl (s : sys) (ls : list label) : option sys :=
  match ls with
  | [] => Some s
  | l :: ls' => match exec s l with Some s' => runl s' ls' | None => None end
  end.

(** ** The name of the event (as character codes) *)
(** int_to_string, 101-114, of an unsigned integer of the given number of hexadecimal digits (twice the size of I): the digits, least significant first,
    as 'A' + digit *)
Fixpoint int_to_string (digits : nat) (p : N) : list N :=
  match digits with
  | 0 => []
  | S k => (65 + N.land p 15)%N :: int_to_string k (N.shiftr p 4)
  end.
(** name_once_mutex, 116-131: the fixed text, the address of the flag, the process id.  [ptr]: twice the size of a pointer *)
Definition once_name (fixed : list N) (ptr : nat) (address pid : N) : list N := fixed ++ int_to_string ptr address ++ int_to_string 8 pid.
