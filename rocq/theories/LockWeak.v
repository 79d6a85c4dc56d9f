(** include/obake/detail/atomic_lock_guard.hpp with the memory orders of the C++ memory model.
    Operational presentation of release/acquire: every atomic flag has a modification order (a list of messages); a test_and_set reads a message and is inserted right after it, a store may be
    inserted anywhere not excluded by coherence; every thread knows a set of events (those that happen before its next action); a release store publishes the set, an acquire operation which
    reads from its release sequence adds it.
    Simplifications: no cycles of program order and reads-from (out of thin air); the flags are initialised before the threads start; the client accesses a variable only within a guard of its flag. *)
From Coq Require Import List Arith Bool.
From Verif Require Import LockModel.
Import ListNotations.

Definition var := nat.
(** An element of the modification order of a flag. *)
Record msg : Type := Msg {
  m_id : nat;
  m_val : bool;
  m_rmw : bool;        (* written by a test_and_set: nothing can come between it and the message it read *)
  m_rel : list nat     (* what a reader with memory_order_acquire learns: the events published by the head of the release sequence *)
}.
(** A non-atomic access to a variable. *)
Record access (V : Type) : Type := Access { a_id : nat; a_write : bool; a_val : V; a_known : list nat (* the events which happen before it *) }.
Arguments Access {V}. Arguments a_id {V}. Arguments a_write {V}. Arguments a_val {V}. Arguments a_known {V}.

Record wstate (V : Type) : Type := WState {
  w_mo : flag -> list msg;
  w_acc : var -> list (access V);      (* the last first *)
  w_known : thread -> list nat;
  w_held : thread -> list flag;
  w_spin : thread -> option flag;
  w_next : nat                         (* the next event *)
}.
Arguments WState {V}. Arguments w_mo {V}. Arguments w_acc {V}. Arguments w_known {V}. Arguments w_held {V}. Arguments w_spin {V}. Arguments w_next {V}.

(** The memory orders of lines 27 and 32: do they acquire, release? *)
Record orders : Type := Orders { tas_acquires : bool; clear_releases : bool }.
(** atomic_lock_guard.hpp:27 memory_order_acquire, :32 memory_order_release. *)
Definition guard_orders : orders := Orders true true.

(** The next message is not a test_and_set which read the last of l1. *)
Definition free_after (l2 : list msg) : Prop := match l2 with [] => True | m :: _ => m_rmw m = false end.
(** Coherence: t knows none of the messages of l2. *)
Definition unknown (known : list nat) (l2 : list msg) : Prop := forall m, In m l2 -> ~ In (m_id m) known.

(** What a non-atomic read may return: the value of a write which is not hidden by a later one that t knows, or the initial value if t knows no write. *)
Definition may_read {V : Type} (v0 : V) (known : list nat) (acc : list (access V)) (v : V) : Prop :=
  (exists a, In a acc /\ a_write a = true /\ a_val a = v /\
     forall b, In b acc -> a_write b = true -> In (a_id b) known -> ~ In (a_id a) (a_known b)) \/
  (v = v0 /\ forall b, In b acc -> a_write b = true -> ~ In (a_id b) known).

Section Weak.
Context {V : Type} (O : orders) (lock_of : var -> flag) (v0 : V).

(** All flags clear, no guards; the initialisation, event 0, is known to all threads. *)
Definition weak_init : wstate V := WState (fun _ => [Msg 0 false false []]) (fun _ => []) (fun _ => [0]) (fun _ => []) (fun _ => None) 1.

Inductive wstep : wstate V -> wstate V -> Prop :=
(** atomic_lock_guard.hpp:25: a thread begins the construction of a guard on flag f. *)
| ws_begin s t f : w_spin s t = None ->
    wstep s (WState (w_mo s) (w_acc s) (w_known s) (w_held s) (upd (w_spin s) t (Some f)) (w_next s))
(** atomic_lock_guard.hpp:27: test_and_set reads the message m; true: the loop goes on; false: the constructor returns. *)
| ws_tas s t f l1 m l2 : w_spin s t = Some f -> w_mo s f = l1 ++ m :: l2 -> free_after l2 -> unknown (w_known s t) l2 ->
    wstep s (WState (upd (w_mo s) f (l1 ++ m :: Msg (w_next s) true true (m_rel m) :: l2)) (w_acc s)
                    (upd (w_known s) t (w_next s :: m_id m :: (if tas_acquires O then m_rel m else []) ++ w_known s t))
                    (if m_val m then w_held s else upd (w_held s) t (f :: w_held s t))
                    (if m_val m then w_spin s else upd (w_spin s) t None) (S (w_next s)))
(** atomic_lock_guard.hpp:30-33: the destructor clears the flag. *)
| ws_clear s t f fs l1 l2 : w_spin s t = None -> w_held s t = f :: fs -> w_mo s f = l1 ++ l2 -> free_after l2 -> unknown (w_known s t) l2 ->
    wstep s (WState (upd (w_mo s) f (l1 ++ Msg (w_next s) false false (if clear_releases O then w_next s :: w_known s t else []) :: l2)) (w_acc s)
                    (upd (w_known s) t (w_next s :: w_known s t)) (upd (w_held s) t fs) (w_spin s) (S (w_next s)))
(** The client reads or writes a variable within a guard of its flag. *)
| ws_read s t x v : w_spin s t = None -> In (lock_of x) (w_held s t) -> may_read v0 (w_known s t) (w_acc s x) v ->
    wstep s (WState (w_mo s) (upd (w_acc s) x (Access (w_next s) false v (w_known s t) :: w_acc s x))
                    (upd (w_known s) t (w_next s :: w_known s t)) (w_held s) (w_spin s) (S (w_next s)))
| ws_write s t x v : w_spin s t = None -> In (lock_of x) (w_held s t) ->
    wstep s (WState (w_mo s) (upd (w_acc s) x (Access (w_next s) true v (w_known s t) :: w_acc s x))
                    (upd (w_known s) t (w_next s :: w_known s t)) (w_held s) (w_spin s) (S (w_next s))).

Inductive wreach : wstate V -> Prop :=
| wreach_init : wreach weak_init
| wreach_step s s' : wreach s -> wstep s s' -> wreach s'.
End Weak.

(** A data race: a thread which holds the guard of x is about to access it, and there is an access to x, one of the two being a write, which does not happen before. *)
Definition race {V : Type} (lock_of : var -> flag) (s : wstate V) : Prop :=
  exists t x a (wr : bool), In (lock_of x) (w_held s t) /\ In a (w_acc s x) /\ (wr = true \/ a_write a = true) /\ ~ In (a_id a) (w_known s t).
(** The value of a variable after the accesses acc, the last first. *)
Fixpoint current {V : Type} (v0 : V) (acc : list (access V)) : V :=
  match acc with [] => v0 | a :: acc' => if a_write a then a_val a else current v0 acc' end.
