(** Specification vocabulary for polynomials with polynomial coefficients. *)
From Coq Require Import ZArith List Bool String Arith.
From Verif Require Import Base SymModel SymSpec PMonSpec KeyOps SeriesModel SeriesSpec LfSpec.
Import ListNotations.
Open Scope Z_scope.

Section Spec.
Context {K Tag KI C TagI : Type} (KS : key_sem K) (KSI : key_sem KI) (CO : cf_ops C).
Notation inner := (series KI C TagI).
Notation outer := (series K (res inner) Tag).

(** The polynomial as a list of terms: exponents over the outer symbols us, exponents over the inner symbols vs, coefficient. *)
Definition flat (us vs : symbol_set) (x : outer) : list ((list Z * list Z) * C) :=
  flat_map (fun e => match snd e with
                     | Ok c => map (fun f => ((spread (s_ss x) us (ks_exps KS (List.length (s_ss x)) (fst e)), spread (s_ss c) vs (ks_exps KSI (List.length (s_ss c)) (fst f))), snd f)) (terms c)
                     | _ => [] end) (terms x).

(** The coefficient of the monomial with exponents ws over us and ts over vs. *)
Definition coef2 (us vs : symbol_set) (x : outer) (ws ts : list Z) : C :=
  csum CO (map snd (filter (fun p => vec_eqb (fst (fst p)) ws && vec_eqb (snd (fst p)) ts) (flat us vs x))).
(** The same coefficient of the product of x and y, by convolution. *)
Definition prod2 (us vs : symbol_set) (x y : outer) (ws ts : list Z) : C :=
  csum CO (map (fun p => c_mul CO (snd (fst p)) (snd (snd p)))
    (filter (fun p => vec_eqb (vadd (fst (fst (fst p))) (fst (fst (snd p)))) ws && vec_eqb (vadd (snd (fst (fst p))) (snd (fst (snd p)))) ts)
      (list_prod (flat us vs x) (flat us vs y)))).
(** The same coefficient of the product of x and a polynomial q in the inner symbols only. *)
Definition scaled2 (us vs : symbol_set) (x : outer) (q : inner) (ws ts : list Z) : C :=
  csum CO (map (fun p => c_mul CO (snd (fst p)) (snd (snd p)))
    (filter (fun p => vec_eqb (fst (fst (fst p))) ws && vec_eqb (vadd (snd (fst (fst p))) (fst (snd p))) ts)
      (list_prod (flat us vs x) (map (fun f => (spread (s_ss q) vs (ks_exps KSI (List.length (s_ss q)) (fst f)), snd f)) (terms q))))).
End Spec.

(** A well-formed polynomial whose coefficients are well-formed polynomials in symbols of U.  RC: the operations of the coefficients. *)
Record rwf {K Tag KI C TagI : Type} (KO : key_ops K) (KS : key_sem K) (RC : cf_ops (res (series KI C TagI))) (KOI : key_ops KI) (KSI : key_sem KI) (CO : cf_ops C)
  (U : symbol_set) (x : series K (res (series KI C TagI)) Tag) : Prop := {
  rw_lwf : lwf KO KS RC x;
  rw_inner : forall k c, In (k, c) (terms x) -> exists s, c = Ok s /\ wf KOI KSI CO s /\ incl (s_ss s) U
}.
