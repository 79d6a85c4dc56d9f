(** Specification vocabulary for polynomials. *)
From Coq Require Import ZArith List Bool String Arith Sorted Permutation Ring_theory.
From Verif Require Import Base IntModel IntSpec SymSpec SymModel PMonSpec KeyOps SeriesModel SeriesSpec PolyModel.
Import ListNotations.
Open Scope Z_scope.

(** What is known of the environment of the multiplication: the verdict is one that the overflow check can
    give in some schedule, sorting permutes and sorts. *)
Record env_ok {K C Tag : Type} (KO : key_ops K) (KS : key_sem K) (E : mul_env K C Tag) : Prop := {
  eo_check : forall (ss : symbol_set) r1 r2, Forall (ks_valid KS (List.length ss)) r1 -> Forall (ks_valid KS (List.length ss)) r2 ->
    k_overflow_check KO true ss r1 r2 (me_check E ss r1 r2);
  eo_perm : forall (A : Type) (f : A -> Z) l, Permutation (me_sort E f l) l;
  eo_sorted : forall (A : Type) (f : A -> Z) l, StronglySorted (fun a b => f a <= f b) (me_sort E f l)
}.

(** The coefficient of the monomial with exponents ws over the symbols us in the product of the polynomials x and y: the sum of
    the products of coefficients over all the pairs of terms whose exponents add up to ws. *)
Definition prod_coef {K C Tag : Type} (KS : key_sem K) (CO : cf_ops C) (us : symbol_set) (x y : series K C Tag) (ws : list Z) : C :=
  csum CO (map (fun p => c_mul CO (snd (fst p)) (snd (snd p)))
    (filter (fun p => vec_eqb (vadd (spread (s_ss x) us (ks_exps KS (List.length (s_ss x)) (fst (fst p))))
                                    (spread (s_ss y) us (ks_exps KS (List.length (s_ss y)) (fst (snd p))))) ws)
      (list_prod (terms x) (terms y)))).

(** The exponents of the symbols selected by [sel], and their sum. *)
Definition selected (sel : string -> bool) (us : symbol_set) (ws : list Z) : list Z :=
  map snd (filter (fun p => sel (fst p)) (combine us ws)).
Definition degree_of (sel : string -> bool) (us : symbol_set) (ws : list Z) : Z := vsum (selected sel us ws).

(** All the symbols; the symbols of a given set. *)
Definition all_symbols (z : string) : bool := true.
Definition one_of (syms : symbol_set) (z : string) : bool := if in_dec string_dec z syms then true else false.

(** A limit of the integral type tV is compared with degrees of type tD without a change of value by the conversions of C++:
    equal signedness, or the signed type is wider, or the degrees are unsigned and the limit is not negative. *)
Definition limit_ok (tV tD : ity) (lim : Z) : Prop :=
  integral_type tV /\ has_value tV lim /\
  (sgnd tV = sgnd tD \/ (sgnd tV = true /\ bits tD < bits tV) \/ (sgnd tD = true /\ bits tV < bits tD) \/ (sgnd tD = false /\ 0 <= lim)).

(** Computable degrees, in any symbols, are values of the type tD. *)
Definition degrees_in {K : Type} (KS : key_sem K) (tD : ity) : Prop :=
  forall sel (u : symbol_set) vs, List.length vs = List.length u -> ks_fits KS vs -> ks_deg_fits KS (selected sel u vs) -> has_value tD (degree_of sel u vs).

(** A truncation argument is exact over the symbols u for the degree in the symbols selected by [sel] and the limit
    lim: degrees are exact or reported as overflowing, and the comparison is the mathematical one for any pair of
    monomials whose product passes the overflow check. *)
Record trunc_exact {K : Type} (KS : key_sem K) (sel : string -> bool) (lim : Z) (u : symbol_set) (t : trunc K) : Prop := {
  te_deg : forall k, ks_valid KS (List.length u) k ->
    let vs := ks_exps KS (List.length u) k in
    (ks_deg_fits KS (selected sel u vs) -> tr_deg t k u = Ok (degree_of sel u vs)) /\
    (~ ks_deg_fits KS (selected sel u vs) -> tr_deg t k u = Throw overflow_error);
  te_over : forall a b, ks_valid KS (List.length u) a -> ks_valid KS (List.length u) b ->
    let v := ks_exps KS (List.length u) a in let w := ks_exps KS (List.length u) b in
    ks_fits KS (vadd v w) -> ks_total_ok KS (vsum v + vsum w) ->
    ks_deg_fits KS (selected sel u v) -> ks_deg_fits KS (selected sel u w) ->
    tr_over t (degree_of sel u v) (degree_of sel u w) = Ok (lim <? degree_of sel u v + degree_of sel u w)
}.

(** The degree of some term of s, over the symbols u, in the selected symbols, is not computable in the degree type. *)
Definition degree_unrep {K C Tag : Type} (KS : key_sem K) (sel : string -> bool) (u : symbol_set) (s : series K C Tag) : Prop :=
  exists k c, In (k, c) (terms s) /\ ~ ks_deg_fits KS (selected sel u (spread (s_ss s) u (ks_exps KS (List.length (s_ss s)) k))).

(** The product of some pair of terms, over the merged symbols u, is rejected by the key type. *)
Definition product_unrep {K C C' Tag : Type} (KS : key_sem K) (u : symbol_set) (x : series K C Tag) (y : series K C' Tag) : Prop :=
  exists a b, In a (terms x) /\ In b (terms y) /\
    let p := spread (s_ss x) u (ks_exps KS (List.length (s_ss x)) (fst a)) in
    let q := spread (s_ss y) u (ks_exps KS (List.length (s_ss y)) (fst b)) in
    ~ (ks_fits KS (vadd p q) /\ ks_total_ok KS (vsum p + vsum q)).

(** The coefficient of ws in the n-th power of x, by recursion: the coefficient of ws in x^(n+1) is the sum over the terms c m of x of c times the
    coefficient of ws / m in x^n. *)
Definition vminus (a b : list Z) : list Z := map (fun p => fst p - snd p) (combine a b).
Fixpoint power_coef {K C Tag : Type} (KS : key_sem K) (CO : cf_ops C) (us : symbol_set) (x : series K C Tag) (n : nat) (ws : list Z) : C :=
  match n with
  | O => if vec_eqb ws (repeat 0 (List.length us)) then c_one CO else c_zero CO
  | S n' => csum CO (map (fun e => c_mul CO (snd e) (power_coef KS CO us x n' (vminus ws (spread (s_ss x) us (ks_exps KS (List.length (s_ss x)) (fst e)))))) (terms x))
  end.
(** The n-th power of a coefficient. *)
Fixpoint cpower {C : Type} (CO : cf_ops C) (c : C) (n : nat) : C :=
  match n with O => c_one CO | S n' => c_mul CO c (cpower CO c n') end.
