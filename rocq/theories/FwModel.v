(** src/detail/fw_utils.cpp: the storage of the flyweight machinery; include/obake/detail/fw_utils.hpp: the holder class.
    Any number of threads, one atomic step at a time in any order.  Simplifications: sequential consistency; types (std::type_index) and addresses are numbers;
    the registry's destructor at program exit is not modelled; std::mutex blocks while it is held. *)
From Coq Require Import List Arith Bool.
From Verif Require Import LockModel.
Import ListNotations.

(** * fw_fetch_storage *)
Definition tpi := nat.
Definition addr := nat.
(** The value of the registry for a type: no entry, an entry whose unique_ptr is null, an entry with storage. *)
Inductive slot : Type := Absent | Null | Has (a : addr).
(** The end of a call: the pair which is returned (None: nullptr), or an exception. *)
Inductive fevent : Type := Returned (t : thread) (tp : tpi) (a : option addr) (is_new : bool) | Threw (t : thread) (tp : tpi).
Inductive fpc : Type :=
| FIdle
| FWait (tp : tpi) (size : nat)                   (* called, not yet locked *)
| FLocked (tp : tpi) (size : nat)                 (* fw_utils.cpp:74 done *)
| FEmplaced (tp : tpi) (size : nat)               (* fw_utils.cpp:77 done, new entry *)
| FDone (tp : tpi) (a : option addr) (is_new : bool). (* before the return of line 95 *)
Record fstate : Type := FState {
  f_map : tpi -> slot;
  f_heap : list (addr * nat);   (* the allocated arrays with their sizes *)
  f_mutex : option thread;
  f_pc : thread -> fpc;
  f_log : list fevent           (* what has been returned so far, in order (for the statements only) *)
}.
Definition fw_init : fstate := FState (fun _ => Absent) [] None (fun _ => FIdle) [].
Definition slot_addr (s : slot) : option addr := match s with Has a => Some a | _ => None end.

Inductive fstep : fstate -> fstate -> Prop :=
| f_call s t tp n : f_pc s t = FIdle ->
    fstep s (FState (f_map s) (f_heap s) (f_mutex s) (upd (f_pc s) t (FWait tp n)) (f_log s))
(** fw_utils.cpp:74. *)
| f_lock s t tp n : f_pc s t = FWait tp n -> f_mutex s = None ->
    fstep s (FState (f_map s) (f_heap s) (Some t) (upd (f_pc s) t (FLocked tp n)) (f_log s))
(** fw_utils.cpp:77: try_emplace; an existing entry is left alone. *)
| f_emplace_new s t tp n : f_pc s t = FLocked tp n -> f_map s tp = Absent ->
    fstep s (FState (upd (f_map s) tp Null) (f_heap s) (f_mutex s) (upd (f_pc s) t (FEmplaced tp n)) (f_log s))
| f_emplace_old s t tp n : f_pc s t = FLocked tp n -> f_map s tp <> Absent ->
    fstep s (FState (f_map s) (f_heap s) (f_mutex s) (upd (f_pc s) t (FDone tp (slot_addr (f_map s tp)) false)) (f_log s))
(** fw_utils.cpp:83: new[] gives an array which overlaps no other. *)
| f_alloc s t tp n a : f_pc s t = FEmplaced tp n -> ~ In a (map fst (f_heap s)) ->
    fstep s (FState (upd (f_map s) tp (Has a)) ((a, n) :: f_heap s) (f_mutex s) (upd (f_pc s) t (FDone tp (Some a) true)) (f_log s))
(** fw_utils.cpp:83-90: new[] throws, the entry is erased, the lock is released. *)
| f_throw s t tp n : f_pc s t = FEmplaced tp n ->
    fstep s (FState (upd (f_map s) tp Absent) (f_heap s) None (upd (f_pc s) t FIdle) (f_log s ++ [Threw t tp]))
(** fw_utils.cpp:95: return, the lock is released. *)
| f_return s t tp a b : f_pc s t = FDone tp a b ->
    fstep s (FState (f_map s) (f_heap s) None (upd (f_pc s) t FIdle) (f_log s ++ [Returned t tp a b])).
Inductive freach : fstate -> Prop :=
| freach_init : freach fw_init
| freach_step s s' : freach s -> fstep s s' -> freach s'.

(** * fw_holder_class<C>::get, for one class C *)
(** The storage of C in the registry: none, raw bytes, a constructed object. *)
Inductive obj : Type := NoStorage | Raw | Constructed.
(** The static reference in get() (fw_utils.hpp:76); every module (DLL) has its own. *)
Inductive guard : Type := GNone | GBusy | GReady.
Inductive hpc : Type :=
| HIdle
| HInit (m : nat)    (* executes impl() for the static reference of module m *)
| HNew (m : nat)     (* fw_fetch_storage returned new storage *)
| HOld (m : nat)     (* fw_fetch_storage returned existing storage *)
| HBuilt (m : nat).  (* the object is constructed *)
Record hstate : Type := HState {
  h_obj : obj;
  h_built : nat;                    (* the number of constructions *)
  h_guard : nat -> guard;
  h_pc : thread -> hpc;
  h_got : list (thread * obj)       (* the references returned by get(), with the state of the object at that time *)
}.
Definition holder_init : hstate := HState NoStorage 0 (fun _ => GNone) (fun _ => HIdle) [].
Inductive hstep : hstate -> hstate -> Prop :=
(** fw_utils.hpp:76: the initialisation of a local static is run by one thread, the others wait for it. *)
| h_enter s t m : h_pc s t = HIdle -> h_guard s m = GNone ->
    hstep s (HState (h_obj s) (h_built s) (upd (h_guard s) m GBusy) (upd (h_pc s) t (HInit m)) (h_got s))
(** fw_utils.hpp:49-50: fw_fetch_storage, which is atomic (C55). *)
| h_fetch s t m : h_pc s t = HInit m ->
    hstep s (HState (match h_obj s with NoStorage => Raw | o => o end) (h_built s) (h_guard s)
                    (upd (h_pc s) t (match h_obj s with NoStorage => HNew m | _ => HOld m end)) (h_got s))
(** fw_utils.hpp:56: placement new. *)
| h_construct s t m : h_pc s t = HNew m ->
    hstep s (HState Constructed (S (h_built s)) (h_guard s) (upd (h_pc s) t (HBuilt m)) (h_got s))
(** fw_utils.hpp:58 and 70: the reference is returned and stored. *)
| h_finish s t m : h_pc s t = HOld m \/ h_pc s t = HBuilt m ->
    hstep s (HState (h_obj s) (h_built s) (upd (h_guard s) m GReady) (upd (h_pc s) t HIdle) (h_got s ++ [(t, h_obj s)]))
(** fw_utils.hpp:76-78: the static reference exists already. *)
| h_fast s t m : h_pc s t = HIdle -> h_guard s m = GReady ->
    hstep s (HState (h_obj s) (h_built s) (h_guard s) (h_pc s) (h_got s ++ [(t, h_obj s)])).
(** Executions in which the modules used are those given. *)
Definition uses (ok : nat -> Prop) (s : hstate) : Prop := forall m, ~ ok m -> h_guard s m = GNone.
Inductive hreach (ok : nat -> Prop) : hstate -> Prop :=
| hreach_init : hreach ok holder_init
| hreach_step s s' : hreach ok s -> hstep s s' -> uses ok s' -> hreach ok s'.
