(** Outcomes and machine integers shared by all the models.

    Nothing here models a particular function of /repo: it fixes how C++
    outcomes and built-in integer arithmetic are represented. *)
From Coq Require Import ZArith List Lia Bool.
Import ListNotations.
Open Scope Z_scope.

(** The exception types thrown by the modelled code (std::overflow_error,
    std::out_of_range, std::invalid_argument, std::domain_error,
    obake::safe_cast_failure (include/obake/math/safe_cast.hpp:27-33) and
    mppp::zero_division_error, boost::archive::archive_exception). *)
Inductive exn : Type :=
  | overflow_error
  | out_of_range
  | invalid_argument
  | domain_error
  | safe_cast_failure
  | zero_division_error
  | archive_exception
  | bad_numeric_cast.

(** The outcome of running a C++ function: a value, an exception, or
    undefined behaviour (signed overflow, invalid shift, access outside an
    array).  [UB] is never assumed away: theorems say which outcome occurs. *)
Inductive res (A : Type) : Type :=
  | Ok (a : A)
  | Throw (e : exn)
  | UB.
Arguments Ok {A} a.
Arguments Throw {A} e.
Arguments UB {A}.

Definition bind {A B : Type} (r : res A) (f : A -> res B) : res B :=
  match r with
  | Ok a => f a
  | Throw e => Throw e
  | UB => UB
  end.

Declare Scope res_scope.
Delimit Scope res_scope with res.
Notation "x <- r ;; k" := (bind r (fun x => k))
  (at level 61, r at next level, right associativity) : res_scope.
Notation "' p <- r ;; k" := (bind r (fun p => k))
  (at level 61, p pattern, r at next level, right associativity) : res_scope.
Open Scope res_scope.

Definition is_ok {A : Type} (r : res A) : bool :=
  match r with Ok _ => true | _ => false end.

(** Sequential loop with early exit on exception: for (auto &x : l) s = f(s, x); *)
Fixpoint rfold {A S : Type} (f : S -> A -> res S) (l : list A) (s : S) : res S :=
  match l with
  | [] => Ok s
  | a :: l' => s' <- f s a ;; rfold f l' s'
  end.

(** [for i: out.push_back(f(x_i))] with early exit on exception. *)
Fixpoint rmap {A B : Type} (f : A -> res B) (l : list A) : res (list B) :=
  match l with
  | [] => Ok []
  | a :: l' => b <- f a ;; bs <- rmap f l' ;; Ok (b :: bs)
  end.

(** Array access: undefined behaviour outside the bounds. *)
Definition rd {A : Type} (l : list A) (i : nat) : res A :=
  match nth_error l i with
  | Some a => Ok a
  | None => UB
  end.

(** A built-in integer type: width in bits and signedness. *)
Record ity : Type := Ity { bits : Z; sgnd : bool }.

Definition imin (t : ity) : Z := if sgnd t then - 2 ^ (bits t - 1) else 0.
Definition imax (t : ity) : Z := if sgnd t then 2 ^ (bits t - 1) - 1 else 2 ^ (bits t) - 1.

(** "z is a value of type t" *)
Definition in_ity (t : ity) (z : Z) : bool := (imin t <=? z) && (z <=? imax t).

(** Two's complement conversion to type t (static_cast, C++20 semantics). *)
Definition wrap (t : ity) (z : Z) : Z :=
  let m := z mod 2 ^ bits t in
  if sgnd t && (2 ^ (bits t - 1) <=? m) then m - 2 ^ bits t else m.

(** The result of a built-in arithmetic operation (+, -, * , unary -) whose
    mathematical result is [z] and whose (promoted) type is [t]: signed
    overflow is undefined behaviour, unsigned arithmetic wraps around. *)
Definition arith (t : ity) (z : Z) : res Z :=
  if sgnd t then (if in_ity t z then Ok z else UB) else Ok (z mod 2 ^ bits t).

(** make_unsigned_t *)
Definition unsigned_of (t : ity) : ity := Ity (bits t) false.

Definition int32 : ity := Ity 32 true.
Definition uint32 : ity := Ity 32 false.
Definition int64 : ity := Ity 64 true.
Definition uint64 : ity := Ity 64 false.
Definition size_t : ity := Ity 64 false.
