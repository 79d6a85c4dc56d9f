(** Specification vocabulary for powers of polynomials with polynomial coefficients. *)
From Coq Require Import ZArith List Bool String Arith.
From Verif Require Import Base SymModel SymSpec PMonSpec KeyOps SeriesModel SeriesSpec PolySpec RecSpec.
Import ListNotations.
Open Scope Z_scope.

(** The coefficient of the monomial with exponents ws over the outer symbols us and ts over the inner symbols vs in the n-th power of x, by recursion:
    the sum over the terms c m of x of c times the coefficient of the monomial divided by m in the power before. *)
Fixpoint power2_coef {K Tag KI C TagI : Type} (KS : key_sem K) (KSI : key_sem KI) (CO : cf_ops C) (us vs : symbol_set) (x : series K (res (series KI C TagI)) Tag) (n : nat) (ws ts : list Z) : C :=
  match n with
  | O => if vec_eqb ws (repeat 0 (List.length us)) && vec_eqb ts (repeat 0 (List.length vs)) then c_one CO else c_zero CO
  | S n' => csum CO (map (fun p => c_mul CO (snd p) (power2_coef KS KSI CO us vs x n' (vminus ws (fst (fst p))) (vminus ts (snd (fst p))))) (flat KS KSI us vs x))
  end.

(** The symbols of the coefficients of x are among vs. *)
Definition inner_in {K Tag KI C TagI : Type} (vs : symbol_set) (x : series K (res (series KI C TagI)) Tag) : Prop :=
  forall k q, In (k, Ok q) (terms x) -> incl (s_ss q) vs.
