(** Specification vocabulary for symbol sets, independent of SymModel.v. *)
From Coq Require Import ZArith List Bool String Sorted.
From Verif Require Import Base.
Import ListNotations.

(** Strict lexicographic order, and "the sequence is a set": strictly increasing. *)
Definition slt (a b : string) : Prop := String.compare a b = Lt.
Definition sorted_set (l : list string) : Prop := StronglySorted slt l.

(** What an insertion map says at position i. *)
Definition ins_at {A : Type} (m : list (nat * list A)) (i : nat) : list A :=
  match find (fun p => Nat.eqb (fst p) i) m with
  | Some p => snd p
  | None => []
  end.

(** Inserting, in front of the element at position i, what [f] says for i (and
    at the end what it says for the length); [i] is the position of the head. *)
Fixpoint insert_all {A : Type} (f : nat -> list A) (i : nat) (l : list A) : list A :=
  match l with
  | [] => f i
  | x :: l' => f i ++ x :: insert_all f (S i) l'
  end.

(** A well-formed insertion map for a set of n symbols: increasing positions,
    none beyond n, nothing empty. *)
Definition ins_map_ok {A : Type} (n : nat) (m : list (nat * list A)) : Prop :=
  StronglySorted lt (map fst m) /\ Forall (fun p => (fst p <= n)%nat /\ snd p <> []) m.
