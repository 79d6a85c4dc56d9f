(** Specification of the substitution of numbers in polynomials with polynomial coefficients.  Independent of the model. *)
From Coq Require Import ZArith List Bool String Arith.
From Verif Require Import Base SymModel SymSpec PMonSpec KeyOps SeriesModel SeriesSpec EvalSpec SubsSpec.
Import ListNotations.
Open Scope Z_scope.

Section Spec.
Context {K Tag KI C TagI A : Type} (KS : key_sem K) (KSI : key_sem KI) (CO : cf_ops C) (pw : A -> Z -> C).
Notation inner := (series KI C TagI).
Notation outer := (series K (res inner) Tag).

(** What one inner term (exponents es over si, coefficient c) of the coefficient of one outer term (exponents os over so) contributes to the coefficient of the monomial with
    exponents ws over us and ts over vs: the symbols of the map get their values, the others stay. *)
Definition contribution (sm : symbol_map A) (us vs so si : symbol_set) (os es : list Z) (c : C) (ws ts : list Z) : C :=
  if vec_eqb (spread so us (keep sm so os)) ws && vec_eqb (spread si vs (keep sm si es)) ts
  then c_mul CO (c_mul CO (mono (c_one CO) (c_mul CO) pw sm so os so) (mono (c_one CO) (c_mul CO) pw sm si es si)) c
  else c_zero CO.
(** The coefficient after the substitution in a sum of terms l over so. *)
Definition subs2 (sm : symbol_map A) (us vs so : symbol_set) (l : list (K * res inner)) (ws ts : list Z) : C :=
  csum CO (flat_map (fun e => match snd e with
    | Ok q => map (fun f => contribution sm us vs so (s_ss q) (ks_exps KS (List.length so) (fst e)) (ks_exps KSI (List.length (s_ss q)) (fst f)) (snd f) ws ts) (terms q)
    | _ => [] end) l).
End Spec.
