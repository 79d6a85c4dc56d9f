(** Specification of packed monomials as exponent vectors, independent of the
    functions of PMonModel.v. *)
From Coq Require Import ZArith List Bool String.
From Verif Require Import Base KpackModel KpackSpec SymSpec.
Import ListNotations.
Open Scope Z_scope.

(** "The packed value p is the monomial with exponents vs over n symbols":
    at most max_size exponents, each within the component limits for n, and p is
    their Kronecker code (0 if n = 0). *)
Definition represents (D : kdata) (n : nat) (p : Z) (vs : list Z) : Prop :=
  List.length vs = n /\ (n <= max_size D)%nat /\ Forall (comp_ok D n) vs /\ p = kron (delta D n) vs.

(** Representable exponent vectors. *)
Definition representable (D : kdata) (vs : list Z) : Prop :=
  (List.length vs <= max_size D)%nat /\ Forall (comp_ok D (List.length vs)) vs.

(** Operations on exponent vectors. *)
Definition vadd (vs ws : list Z) : list Z := map (fun p => fst p + snd p) (combine vs ws).
Definition vsum (vs : list Z) : Z := fold_right Z.add 0 vs.
Definition vscale (k : Z) (vs : list Z) : list Z := map (fun v => v * k) vs.
Definition set_at (i : nat) (x : Z) (vs : list Z) : list Z := firstn i vs ++ x :: skipn (S i) vs.

(** The entries whose position satisfies [keep], in order. *)
Definition select {A : Type} (keep : nat -> bool) (l : list A) : list A :=
  map snd (filter (fun p => keep (fst p)) (combine (seq 0 (List.length l)) l)).

Definition mem (i : nat) (si : list nat) : bool := existsb (Nat.eqb i) si.

(** Zeros where the insertion map says so. *)
Definition insert_zeros (m : list (nat * list string)) (vs : list Z) : list Z :=
  insert_all (fun i => map (fun _ => 0) (ins_at m i)) 0 vs.

(** The exponent of the symbol called x in the monomial with exponents vs over
    the symbols ss (0 if x is not one of them). *)
Fixpoint expo (ss : list string) (vs : list Z) (x : string) : Z :=
  match ss, vs with
  | s :: ss', v :: vs' => if String.eqb s x then v else expo ss' vs' x
  | _, _ => 0
  end.

(** vs with zeros at the positions in si. *)
Definition zero_at (si : list nat) (vs : list Z) : list Z :=
  map (fun p => if mem (fst p) si then 0 else snd p) (combine (seq 0 (List.length vs)) vs).
