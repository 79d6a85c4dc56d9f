(** Specification vocabulary for series over any coefficient type: floating point numbers, series, and other types whose
    operations need not obey the laws of a ring.  What is said is which coefficient operations produce which coefficient. *)
From Coq Require Import ZArith List Bool String Arith Permutation.
From Verif Require Import Base SymSpec SymModel PMonSpec KeyOps SeriesModel SeriesSpec.
Import ListNotations.
Open Scope Z_scope.

(** All that is asked from the coefficients: is_zero() is true of the value constructed from 0, and does not change under negation. *)
Record light_laws {C : Type} (CO : cf_ops C) : Prop := {
  ll_zero : c_is_zero CO (c_zero CO) = true;
  ll_neg : forall c, c_is_zero CO (c_neg CO c) = c_is_zero CO c
}.

(** The coefficient stored for the monomial with exponents ws over the symbols us, if there is one. *)
Definition entry {K C Tag : Type} (KS : key_sem K) (us : symbol_set) (s : series K C Tag) (ws : list Z) : option C :=
  option_map snd (find (fun e => vec_eqb (spread (s_ss s) us (ks_exps KS (List.length (s_ss s)) (fst e))) ws) (terms s)).

(** The class invariants, with the zero test of the coefficients. *)
Record lwf {K C Tag : Type} (KO : key_ops K) (KS : key_sem K) (CO : cf_ops C) (s : series K C Tag) : Prop := {
  lw_wf : wf KO KS CO s;
  lw_nonzero : forall k c, In (k, c) (terms s) -> c_is_zero CO c = false
}.

Section Comb.
Context {C : Type} (CO : cf_ops C).
(** A coefficient is stored unless it is zero. *)
Definition nonzero (c : C) : option C := if c_is_zero CO c then None else Some c.
(** The coefficients a and b of the same monomial are combined by one addition or subtraction, in this order; a alone is kept; b alone is kept or negated. *)
Definition merged (sign : bool) (a b : option C) : option C :=
  match a, b with
  | _, None => a
  | None, Some b => nonzero (if sign then b else c_neg CO b)
  | Some a, Some b => nonzero (if sign then c_add CO a b else c_sub CO a b)
  end.
(** The binary operators merge into the longer operand; a difference computed the other way around is negated. *)
Definition combined (sign x_longer : bool) (a b : option C) : option C :=
  if x_longer then merged sign a b
  else if sign then merged sign b a
  else option_map (c_neg CO) (merged sign b a).
(** The coefficient accumulated, in this order, from pairs of factors: the first product, then one multiply-and-add for each other pair. *)
Definition accumulated (l : list (C * C)) : option C :=
  match l with [] => None | p :: l' => Some (fold_left (fun c q => c_fma CO c (fst q) (snd q)) l' (c_mul CO (fst p) (snd p))) end.
Definition accumulated_nonzero (l : list (C * C)) : option C :=
  match accumulated l with Some c => nonzero c | None => None end.
End Comb.

(** The pairs of coefficients of x and y whose monomials multiply to the monomial with exponents ws over the symbols us. *)
Definition factors {K C Tag : Type} (KS : key_sem K) (us : symbol_set) (x y : series K C Tag) (ws : list Z) : list (C * C) :=
  map (fun p => (snd (fst p), snd (snd p)))
    (filter (fun p => vec_eqb (vadd (spread (s_ss x) us (ks_exps KS (List.length (s_ss x)) (fst (fst p)))) (spread (s_ss y) us (ks_exps KS (List.length (s_ss y)) (fst (snd p))))) ws)
      (list_prod (terms x) (terms y))).
