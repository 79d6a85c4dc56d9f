(** Specification vocabulary for the substitution of power series in power series: formal sums of monomials over a fixed list of symbols.  Independent of the model. *)
From Coq Require Import ZArith List Bool String Arith.
From Verif Require Import Base SymModel PMonSpec KeyOps SeriesModel SeriesSpec PolySpec EvalSpec SubsSpec.
Import ListNotations.
Open Scope Z_scope.

Section F.
Context {K C Tag : Type} (KS : key_sem K) (CO : cf_ops C).
(** A formal sum: exponents and coefficients. *)
Notation formal := (list (list Z * C)).
Definition f_one (n : nat) : formal := [(repeat 0 n, c_one CO)].
Definition f_mul (a b : formal) : formal := map (fun p => (vadd (fst (fst p)) (fst (snd p)), c_mul CO (snd (fst p)) (snd (snd p)))) (list_prod a b).
Fixpoint f_pow (n : nat) (a : formal) (e : nat) : formal :=
  match e with
  | O => f_one n
  | S e' => f_mul (f_pow n a e') a
  end.
(** The coefficient of the monomial with exponents ws. *)
Definition f_coef (a : formal) (ws : list Z) : C := csum CO (map snd (filter (fun e => vec_eqb (fst e) ws) a)).
(** The terms of s over the symbols us. *)
Definition f_of (us : symbol_set) (s : series K C Tag) : formal := map (fun e => (spread (s_ss s) us (ks_exps KS (List.length (s_ss s)) (fst e)), snd e)) (terms s).
(** The term c m of x with the values of the map in place of its symbols: the product of the powers of the values, times c and the rest of m. *)
Definition f_powers (us : symbol_set) (sm : symbol_map (series K C Tag)) (ss : symbol_set) (vs : list Z) : formal :=
  fold_right (fun z acc => match assoc sm z with Some u => f_mul (f_pow (List.length us) (f_of us u) (Z.to_nat (expo ss vs z))) acc | None => acc end) (f_one (List.length us)) ss.
Definition f_term (us : symbol_set) (sm : symbol_map (series K C Tag)) (x : series K C Tag) (e : K * C) : formal :=
  let vs := ks_exps KS (List.length (s_ss x)) (fst e) in
  f_mul (f_powers us sm (s_ss x) vs) [(spread (s_ss x) us (keep sm (s_ss x) vs), snd e)].
(** x with the values of the map in place of its symbols. *)
Definition f_subst (us : symbol_set) (sm : symbol_map (series K C Tag)) (x : series K C Tag) : formal := List.concat (map (f_term us sm x) (terms x)).
End F.
