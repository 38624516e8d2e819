(** * Model of task regions (fork-join)

    Source: include/boost/thread/experimental/parallel/v2/task_region.hpp (all), experimental/parallel/v1/exception_list.hpp.

    A task either ends at once, normally or with an exception, or calls task_region with a body, which spawns tasks ([Run]), waits for them ([Wait]) and may throw.
    Task 0 is the thread that makes the outermost call.  Any number of regions, tasks and levels.
    BOOST_THREAD_TASK_REGION_HAS_SHARED_CANCELED is defined (line 29).  The executor either starts every task at some time (a thread per task, or a pool of its own
    for every region: [cap] = None) or runs at most [cap] tasks at a time (task_region with a given executor, used for all the nested regions).
    Simplifications: the exceptions are numbers; the future of a task is its state [Ended]; a body runs one region at a time; tasks use only regions of their own
    (a run or wait from another task races on the unsynchronised vector [group]); no failure of async or of an allocation. *)
From Coq Require Export List Arith Lia Bool.
Export ListNotations.
Set Implicit Arguments.

Inductive task := Plain (o : option nat) | Nested (b : list cmd)
with cmd :=
| Run (k : task)             (* tr.run(k) *)
| Wait (catch : bool)        (* tr.wait(), or try { tr.wait(); } catch (...) {} *)
| Throw (n : nat).           (* throw n; *)

(** what can be thrown in a body: lines 37-46, exception_list *)
Inductive exn := Exc (n : nat) | Canceled | Errs (l : list nat).

(** handle_task_region_exceptions, lines 53-81: what is added to the list *)
Definition handled (e : exn) : list nat := match e with Exc n => [n] | Canceled => [] | Errs l => l end.

(** task_region_handle_gen, lines 189-198 *)
Record region := MkR { canceled : bool; exs : list nat; group : list nat }.
Definition new_region : region := MkR false [] [].        (* 157-187 *)

Inductive status :=
| Queued (k : task)                                      (* handed to the executor *)
| Working (o : option nat)                               (* f() of a plain task *)
| Body (r : list cmd) (R : region)                       (* f(tr), line 286 *)
| Waiting (r : list cmd) (catch : bool) (R : region)     (* in tr.wait() *)
| Final (R : region)                                     (* tr.wait_all(), line 292 *)
| Failing (l : list nat)                                 (* an exception has left f in wrapped::operator(), canceled is not yet set *)
| Ended (l : list nat).                                  (* the future is ready; [l] the exceptions, [] without *)

Record tsk := MkT { parent : nat; st : status }.

Inductive event :=
| Entered (i : nat) (b : list cmd)   (* [i] called task_region with this body *)
| Spawned (p c : nat)
| Threw (i n : nat)                  (* the body of the region of [i] executed throw n *)
| Returned (i : nat) (l : list nat). (* the task, and its region, ended with these exceptions *)

Record cfg := MkC { tasks : list tsk; hist : list event }.   (* newest event first *)

Fixpoint upd (A : Type) (l : list A) (i : nat) (x : A) : list A :=
  match l, i with [], _ => [] | _ :: r, 0 => x :: r | y :: r, S j => y :: upd r j x end.

Definition results (ts : list tsk) (g : list nat) : option (list nat) :=
  fold_right (fun i acc => match acc, nth_error ts i with Some l, Some (MkT _ (Ended l')) => Some (l' ++ l) | _, _ => None end) (Some []) g.

Definition set_canceled (x : status) : status :=
  match x with
  | Body r R => Body r (MkR true (exs R) (group R))
  | Waiting r c R => Waiting r c (MkR true (exs R) (group R))
  | Final R => Final (MkR true (exs R) (group R))
  | _ => x
  end.

Definition active (i : nat) (x : status) : bool :=
  match i, x with
  | 0, _ => false
  | _, (Working _ | Body _ _ | Waiting _ _ _ | Final _ | Failing _) => true
  | _, _ => false
  end.
Fixpoint count_active (i : nat) (ts : list tsk) : nat :=
  match ts with [] => 0 | x :: r => (if active i (st x) then 1 else 0) + count_active (S i) r end.

Definition begin (k : task) : status := match k with Plain o => Working o | Nested b => Body b new_region end.

Definition entering (i : nat) (k : task) : list event := match k with Plain _ => [] | Nested b => [Entered i b] end.

(** An exception has left the body: lines 288-291. *)
Definition body_throws (R : region) (e : exn) : status := Final (MkR (canceled R) (exs R ++ handled e) (group R)).
(** The task ends: wrapped::operator(), lines 92-104; without exception the future becomes ready at once. *)
Definition finish (l : list nat) : status := match l with [] => Ended [] | _ => Failing l end.

(** One step of task [i]. *)
Definition step (cap : option nat) (c : cfg) (i : nat) : option cfg :=
  match nth_error (tasks c) i with
  | None => None
  | Some (MkT p x) =>
      let set x' ev := Some (MkC (upd (tasks c) i (MkT p x')) (ev ++ hist c)) in
      match x with
      | Queued k =>
          (* the executor starts it *)
          match cap with
          | Some n => if n <=? count_active 0 (tasks c) then None else set (begin k) (entering i k)
          | None => set (begin k) (entering i k)
          end
      | Working o =>
          match o with
          | Some n => set (Failing [n]) []
          | None => set (Ended []) [Returned i []]
          end
      | Body (Run k :: r) R =>
          (* run, lines 208-233 *)
          if canceled R then set (body_throws R Canceled) []
          else let c' := length (tasks c) in
               Some (MkC (upd (tasks c) i (MkT p (Body r (MkR (canceled R) (exs R) (group R ++ [c'])))) ++ [MkT i (Queued k)]) (Spawned i c' :: hist c))
      | Body (Wait ct :: r) R =>
          (* wait, lines 235-246 *)
          if canceled R then set (if ct then Body r R else body_throws R Canceled) []
          else set (Waiting r ct R) []
      | Body (Throw n :: _) R => set (body_throws R (Exc n)) [Threw i n]
      | Body [] R => set (Final R) []
      | Waiting r ct R =>
          (* wait_all, lines 127-150 *)
          match results (tasks c) (group R) with
          | None => None
          | Some l =>
              let R' := MkR (canceled R) (exs R ++ l) (group R) in
              match exs R' with
              | [] => set (Body r R') []
              | es => set (if ct then Body r R' else body_throws R' (Errs es)) []
              end
          end
      | Final R =>
          match results (tasks c) (group R) with
          | None => None
          | Some l => set (finish (exs R ++ l)) (match exs R ++ l with [] => [Returned i []] | _ => [] end)
          end
      | Failing l =>
          (* canceled = true in the region that spawned it (lines 100-102) and the exception is stored in the future; one step: nobody looks at both *)
          let ts := upd (tasks c) i (MkT p (Ended l)) in
          let ts := if i =? 0 then ts else match nth_error ts p with Some (MkT q y) => upd ts p (MkT q (set_canceled y)) | None => ts end in
          Some (MkC ts (Returned i l :: hist c))
      | Ended _ => None
      end
  end.

(** The caller's body begins at once. *)
Definition init (b : list cmd) : cfg := MkC [MkT 0 (Body b new_region)] [Entered 0 b].

Inductive reach (cap : option nat) (b : list cmd) : cfg -> Prop :=
| reach_init : reach cap b (init b)
| reach_step c c' i : reach cap b c -> step cap c i = Some c' -> reach cap b c'.
