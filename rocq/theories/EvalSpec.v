(** Specification of evaluation: the value of a polynomial at a point.  Independent of the model. *)
From Coq Require Import ZArith List Bool String.
From Verif Require Import Base SymModel PMonSpec KeyOps SeriesModel SeriesSpec.
Import ListNotations.
Open Scope Z_scope.

(** What the map m associates to the name z. *)
Definition assoc {U : Type} (m : symbol_map U) (z : string) : option U :=
  option_map snd (find (fun p => String.eqb (fst p) z) m).

Section Spec.
Context {K C Tag V U : Type} (KS : key_sem K) (vzero vone : V) (vadd vmul : V -> V -> V) (vpow : U -> Z -> res V) (pw : U -> Z -> V) (h : C -> V).

(** value ^ exponent of the symbol z in the monomial with exponents vs over ss. *)
Definition factor (m : symbol_map U) (ss : symbol_set) (vs : list Z) (z : string) : V :=
  match assoc m z with Some v => pw v (expo ss vs z) | None => vone end.
(** The product of these over the names in us. *)
Definition mono (m : symbol_map U) (ss : symbol_set) (vs : list Z) (us : symbol_set) : V :=
  fold_right vmul vone (map (factor m ss vs) us).
(** The value of the polynomial s at the point m: the sum of coefficient * monomial. *)
Definition value (m : symbol_map U) (s : series K C Tag) : V :=
  fold_right vadd vzero (map (fun e => vmul (h (snd e)) (mono m (s_ss s) (ks_exps KS (List.length (s_ss s)) (fst e)) (s_ss s))) (terms s)).
(** All the powers needed to evaluate s exist. *)
Definition powers_exist (m : symbol_map U) (s : series K C Tag) : Prop :=
  forall z v k c, In (z, v) m -> In (k, c) (terms s) -> In z (s_ss s) ->
    vpow v (expo (s_ss s) (ks_exps KS (List.length (s_ss s)) k) z) = Ok (pw v (expo (s_ss s) (ks_exps KS (List.length (s_ss s)) k) z)).
Definition pow0 (m : symbol_map U) : Prop := forall z v, In (z, v) m -> pw v 0 = vone.
(** v^(a+b) = v^a v^b for the values of m and exponents in Ex (all of them if the values are invertible, the natural numbers otherwise). *)
Definition pow_adds (Ex : Z -> Prop) (m : symbol_map U) : Prop :=
  Ex 0 /\ forall z v a b, In (z, v) m -> Ex a -> Ex b -> pw v (a + b) = vmul (pw v a) (pw v b).
(** The exponents of s are in Ex. *)
Definition expos_in (Ex : Z -> Prop) (s : series K C Tag) : Prop :=
  forall k c, In (k, c) (terms s) -> Forall Ex (ks_exps KS (List.length (s_ss s)) k).
End Spec.
