(** include/obake/detail/atomic_lock_guard.hpp: the spin lock.
    Any number of threads run concurrently, one atomic step at a time in any order (a schedule is any sequence of steps).
    Simplification: sequential consistency; the memory orders acquire and release of lines 27 and 32 are in LockWeak.v. *)
From Coq Require Import List Arith Bool.
Import ListNotations.

Definition thread := nat.
Definition flag := nat.

(** What a thread does with guards: it holds a stack of guards (they are scoped objects, destroyed in reverse order) and it may be in a constructor. *)
Record lstate : Type := LState {
  l_flags : flag -> bool;          (* the atomic flags *)
  l_held : thread -> list flag;    (* the flags of the guards constructed and not destroyed, the last first *)
  l_spin : thread -> option flag   (* the constructor which the thread executes *)
}.
Definition upd {A : Type} (f : nat -> A) (i : nat) (a : A) : nat -> A := fun j => if Nat.eqb j i then a else f j.

(** All flags clear, no guards. *)
Definition lock_init : lstate := LState (fun _ => false) (fun _ => []) (fun _ => None).

Inductive lstep : lstate -> lstate -> Prop :=
(** atomic_lock_guard.hpp:25: a thread begins the construction of a guard on flag f. *)
| step_begin s t f : l_spin s t = None ->
    lstep s (LState (l_flags s) (l_held s) (upd (l_spin s) t (Some f)))
(** atomic_lock_guard.hpp:27: one test_and_set: the old value is returned and the flag is set, in one step; true: the loop goes on; false: the constructor returns. *)
| step_test_and_set s t f : l_spin s t = Some f ->
    lstep s (LState (upd (l_flags s) f true)
                    (if l_flags s f then l_held s else upd (l_held s) t (f :: l_held s t))
                    (if l_flags s f then l_spin s else upd (l_spin s) t None))
(** atomic_lock_guard.hpp:30-33: the destructor clears the flag. *)
| step_clear s t f fs : l_spin s t = None -> l_held s t = f :: fs ->
    lstep s (LState (upd (l_flags s) f false) (upd (l_held s) t fs) (l_spin s)).

Inductive lreach : lstate -> Prop :=
| reach_init : lreach lock_init
| reach_step s s' : lreach s -> lstep s s' -> lreach s'.

(** * A variable protected by a lock *)
(** Every thread runs sections { atomic_lock_guard g(flag); r = x; x = f(r); } where the read and the write are separate steps. *)
Inductive pc (A : Type) : Type :=
| Idle
| Spinning (f : A -> A)
| Entered (f : A -> A)
| Loaded (f : A -> A) (r : A)
| Stored.
Arguments Idle {A}. Arguments Spinning {A}. Arguments Entered {A}. Arguments Loaded {A}. Arguments Stored {A}.
Record cstate (A : Type) : Type := CState { c_flag : bool; c_var : A; c_pc : thread -> pc A; c_entered : list (A -> A) (* the sections entered so far, the last first (for the statement only) *) }.
Arguments CState {A}. Arguments c_flag {A}. Arguments c_var {A}. Arguments c_pc {A}. Arguments c_entered {A}.
Inductive cstep {A : Type} : cstate A -> cstate A -> Prop :=
| c_begin s t f : c_pc s t = Idle -> cstep s (CState (c_flag s) (c_var s) (upd (c_pc s) t (Spinning f)) (c_entered s))
| c_tas_fail s t f : c_pc s t = Spinning f -> c_flag s = true -> cstep s (CState true (c_var s) (c_pc s) (c_entered s))
| c_tas_ok s t f : c_pc s t = Spinning f -> c_flag s = false -> cstep s (CState true (c_var s) (upd (c_pc s) t (Entered f)) (f :: c_entered s))
| c_load s t f : c_pc s t = Entered f -> cstep s (CState (c_flag s) (c_var s) (upd (c_pc s) t (Loaded f (c_var s))) (c_entered s))
| c_store s t f r : c_pc s t = Loaded f r -> cstep s (CState (c_flag s) (f r) (upd (c_pc s) t Stored) (c_entered s))
| c_clear s t : c_pc s t = Stored -> cstep s (CState false (c_var s) (upd (c_pc s) t Idle) (c_entered s)).
Inductive creach {A : Type} (x0 : A) : cstate A -> Prop :=
| creach_init : creach x0 (CState false x0 (fun _ => Idle) [])
| creach_step s s' : creach x0 s -> cstep s s' -> creach x0 s'.
