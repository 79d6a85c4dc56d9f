(** Concurrent calls of pow(): the mutex of the cache of powers (series.hpp:1627-1716) and the task scheduler (TBB) which runs the multiplications
    made while the mutex is locked.  Threads run programs; a waiting thread runs tasks, its own or others, as TBB does. *)
From Coq Require Import List Arith Bool Lia.
Import ListNotations.

(** What a thread or a task does.  [Task locks acts]: if [locks], the mutex is locked during the actions, as in series.hpp:1685-1716; [Fork ts]: a parallel
    algorithm of TBB, which creates the tasks ts and returns when they are finished (the multiplications of series.hpp:1709 do so, polynomial.hpp:506-1563, and
    the program of the user may); [Call t]: a function call.  A call of pow() is [Task true acts] where acts are the parallel algorithms of the missing
    multiplications; clear_series_pow_map() (src/series.cpp:72-81) is another such call: the cached series are destroyed by parallel algorithms (series.hpp:913-925).  Simplification: what is computed, exceptions, and the caching (acts is any list). *)
Inductive task : Type := Task (locks : bool) (acts : list action)
with action : Type := Fork (ts : list task) | Call (t : task).

(** A task or function being executed: its parent (0: none), whether it is at the lock_guard (series.hpp:1685), whether it holds the mutex, what is left to do. *)
Record frame : Type := Frame { f_id : nat; f_parent : nat; f_need : bool; f_holds : bool; f_rest : list action }.
(** The owner of the mutex, the tasks created and not started, with their parents, and what each thread executes, the innermost first. *)
Record cstate : Type := CState { owner : option nat; pool : list (nat * task); stacks : list (list frame); next : nat }.

Definition start (id parent : nat) (t : task) : frame := match t with Task lk acts => Frame id parent lk false acts end.
(** Some task created by the frame, or the function called by it, is not finished. *)
Definition outstanding (st : cstate) (id : nat) : bool :=
  existsb (fun e => Nat.eqb (fst e) id) (pool st) || existsb (fun s => existsb (fun f => Nat.eqb (f_parent f) id) s) (stacks st).

Section Sched.
(** The scheduler: may a thread which executes s (nothing if idle), and waits, start this task of another parent? *)
Variable steals : list frame -> nat * task -> Prop.

Inductive cstep : cstate -> cstate -> Prop :=
(** An idle thread, or one waiting in a parallel algorithm, starts a task. *)
| step_take o p1 e p2 l1 s l2 n : let st := CState o (p1 ++ e :: p2) (l1 ++ s :: l2) n in
    match s with [] => steals s e | f :: _ => f_need f = false /\ outstanding st (f_id f) = true /\ (fst e = f_id f \/ steals s e) end ->
    cstep st (CState o (p1 ++ p2) (l1 ++ (start n (fst e) (snd e) :: s) :: l2) (S n))
(** series.hpp:1685: the mutex is locked if nobody holds it. *)
| step_lock p l1 f s l2 n : f_need f = true ->
    cstep (CState None p (l1 ++ (f :: s) :: l2) n) (CState (Some (f_id f)) p (l1 ++ (Frame (f_id f) (f_parent f) false true (f_rest f) :: s) :: l2) n)
(** A parallel algorithm begins, after the previous one has returned. *)
| step_fork o p l1 f ts r s l2 n : let st := CState o p (l1 ++ (f :: s) :: l2) n in f_need f = false -> f_rest f = Fork ts :: r -> outstanding st (f_id f) = false ->
    cstep st (CState o (map (fun t => (f_id f, t)) ts ++ p) (l1 ++ (Frame (f_id f) (f_parent f) false (f_holds f) r :: s) :: l2) n)
(** A function is called. *)
| step_call o p l1 f t r s l2 n : let st := CState o p (l1 ++ (f :: s) :: l2) n in f_need f = false -> f_rest f = Call t :: r -> outstanding st (f_id f) = false ->
    cstep st (CState o p (l1 ++ (start n (f_id f) t :: Frame (f_id f) (f_parent f) false (f_holds f) r :: s) :: l2) (S n))
(** The function or task ends; lock_guard unlocks the mutex. *)
| step_end o p l1 f s l2 n : let st := CState o p (l1 ++ (f :: s) :: l2) n in f_need f = false -> f_rest f = [] -> outstanding st (f_id f) = false ->
    cstep st (CState (if f_holds f then None else o) p (l1 ++ s :: l2) n).

Inductive csteps : nat -> cstate -> cstate -> Prop :=
| steps_0 st : csteps 0 st st
| steps_S n st st' st'' : csteps n st st' -> cstep st' st'' -> csteps (S n) st st''.
End Sched.

(** One thread per program. *)
Fixpoint threads (id : nat) (progs : list task) : list (list frame) := match progs with [] => [] | t :: l => [start id 0 t] :: threads (S id) l end.
Definition init (progs : list task) : cstate := CState None [] (threads 1 progs) (S (length progs)).
(** Everything has returned. *)
Definition finished (st : cstate) : Prop := pool st = [] /\ Forall (fun s => s = []) (stacks st).

(** No locking inside: as in the multiplication of polynomials. *)
Inductive lock_free : task -> Prop := lf_task acts : Forall lock_free_act acts -> lock_free (Task false acts)
with lock_free_act : action -> Prop := lf_fork ts : Forall lock_free ts -> lock_free_act (Fork ts) | lf_call t : lock_free t -> lock_free_act (Call t).
(** pow() is called by the thread, in functions but not in tasks; inside of it there is no locking. *)
Inductive direct : task -> Prop :=
| d_task acts : Forall direct_act acts -> direct (Task false acts)
| d_pow acts : Forall lock_free_act acts -> direct (Task true acts)
with direct_act : action -> Prop := d_fork ts : Forall lock_free ts -> direct_act (Fork ts) | d_call t : direct t -> direct_act (Call t).

(** A bound of the number of steps. *)
Fixpoint work (t : task) : nat := match t with Task lk acts => 2 + (if lk then 1 else 0) + list_sum (map work_act acts) end
with work_act (a : action) : nat := match a with Fork ts => 1 + list_sum (map work ts) | Call t => 1 + work t end.
