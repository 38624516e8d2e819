(** * Model of serial_executor

    Source: include/boost/thread/executors/serial_executor.hpp:35-217.

    Closures are numbered in the order in which the queue accepts them.  The underlying executor is any set of threads that take the jobs they have been given in any
    order ([OExec], the environment [e] chooses the job); a job is the wrapper try_executing_one_task (47-63): it runs the closure, then sets the promise.
    [log] records, newest first, when closures begin and end.
    Simplifications: the queue operations are single steps (they are the subject of SQ_Model.v); the worker thread polls an empty queue with yield: here it waits and is
    woken as soon as polling would find a closure or the queue closed; submissions to the underlying executor succeed (a throwing one terminates the program, 87-91);
    what closures do is represented by the other threads' calls, which may come at any time; a closure that throws ends like any other (58-61 stores the exception
    in a promise that nobody reads). *)
From Verif Require Import Monitor.
Set Implicit Arguments.

Inductive act := Beg (i : nat) | End (i : nat).
Record sx := MkX { q : list nat; clos : bool; nsub : nat; pend : list nat; log : list act; wstart : bool; wdone : bool }.
Definition sx0 : sx := MkX [] false 0 [] [] false false.

Inductive xop :=
| OSubmit                  (* submit *)
| OClose                   (* close *)
| OTry                     (* try_executing_one, called by a user (reschedule_until is a loop of it) *)
| OWorker                  (* the thread thr *)
| OExec                    (* a thread of the underlying executor *)
| ODestroy.                (* ~serial_executor: close, then the scoped_thread joins *)
Inductive xres := ROk | RClosed | RBool (b : bool) | RUsed.
(** [CQ]: the worker's polling; [CF]: futures of jobs; [CD]: the end of the worker; [CP]: idle executor threads *)
Inductive xcv := CQ | CF | CD | CP.
Definition xcv_eqb (a b : xcv) : bool := match a, b with CQ, CQ | CF, CF | CD, CD | CP, CP => true | _, _ => false end.
(** who is in try_executing_one: the first or the second loop of worker_thread, or a user *)
Inductive mode := MLoop | MDrain | MTry.
Inductive xk :=
| KStart (op : xop)
| KLoop                    (* 115: while (!closed()) *)
| KPull (m : mode)         (* 76: try_pull *)
| KSub (m : mode) (i : nat)   (* 80: ex.submit *)
| KWait (m : mode) (i : nat)  (* 81: wait for the promise *)
| KRun (i : nat)           (* an executor thread inside closure [i] *)
| KJoin.

Notation xout := (sx * list (notif xcv) * outcome xk xcv xres)%type.
Notation ret r := (ORet xk xcv r).
Notation yield k := (OYield xcv xres k).
Notation sleep v k := (OSleep xres v k).

Definition set_q l s := MkX l (clos s) (nsub s) (pend s) (log s) (wstart s) (wdone s).
Definition set_pend l s := MkX (q s) (clos s) (nsub s) l (log s) (wstart s) (wdone s).
Definition add_log a s := MkX (q s) (clos s) (nsub s) (pend s) (a :: log s) (wstart s) (wdone s).
Definition set_clos s := MkX (q s) true (nsub s) (pend s) (log s) (wstart s) (wdone s).
Fixpoint take_nth (j : nat) (l : list nat) {struct l} : option (nat * list nat) :=
  match l, j with
  | [], _ => None
  | i :: l', 0 => Some (i, l')
  | i :: l', S j' => match take_nth j' l' with Some (x, l'') => Some (x, i :: l'') | None => Some (i, l') end
  end.
Fixpoint finished (i : nat) (l : list act) : bool := match l with [] => false | End j :: l' => (j =? i) || finished i l' | Beg _ :: l' => finished i l' end.

Definition xfrag (_ : nat) (e : nat) (k : xk) (s : sx) : xout :=
  match k with
  (* 178-181 *)
  | KStart OSubmit => if clos s then (s, [], ret RClosed)
                      else (MkX (q s ++ [nsub s]) false (S (nsub s)) (pend s) (log s) (wstart s) (wdone s), [NAll CQ], ret ROk)
  (* 151-154 *)
  | KStart OClose => (set_clos s, [NAll CQ], ret ROk)
  | KStart OTry => (s, [], yield (KPull MTry))
  | KStart OWorker => if wstart s then (s, [], ret RUsed) else (MkX (q s) (clos s) (nsub s) (pend s) (log s) true (wdone s), [], yield KLoop)
  (* 113-122 *)
  | KLoop => if clos s then (s, [], yield (KPull MDrain)) else (s, [], yield (KPull MLoop))
  (* 71-93 *)
  | KPull m =>
      match q s with
      | i :: q' => (set_q q' s, [], yield (KSub m i))
      | [] => match m with
              | MLoop => if clos s then (s, [], yield KLoop) else (s, [], sleep CQ KLoop)
              | MDrain => (MkX (q s) (clos s) (nsub s) (pend s) (log s) (wstart s) true, [NAll CD], ret ROk)
              | MTry => (s, [], ret (RBool false))
              end
      end
  | KSub m i => (set_pend (pend s ++ [i]) s, [NAll CP], yield (KWait m i))
  | KWait m i =>
      if finished i (log s) then match m with MLoop => (s, [], yield KLoop) | MDrain => (s, [], yield (KPull MDrain)) | MTry => (s, [], ret (RBool true)) end
      else (s, [], sleep CF k)
  | KStart OExec => match take_nth e (pend s) with Some (i, l) => (add_log (Beg i) (set_pend l s), [], yield (KRun i)) | None => (s, [], sleep CP k) end
  | KRun i => (add_log (End i) s, [NAll CF], yield (KStart OExec))
  (* 141-145, and the destructor of thr *)
  | KStart ODestroy => (set_clos s, [NAll CQ], yield KJoin)
  | KJoin => if wdone s then (s, [], ret ROk) else (s, [], sleep CD k)
  end.

Definition sxprog (allowed : xop -> bool) : prog sx xk xop xres xcv unit nat :=
  MkProg xcv_eqb KStart xfrag (fun _ => None) (fun _ => None) (fun _ op => allowed op) (fun l _ _ => l).
