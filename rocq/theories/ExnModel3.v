(** pow() when anything in it may throw: the cache of powers as the state ([M], ExnModel.v). *)
From Coq Require Import ZArith List Bool String Arith.
From Verif Require Import Base IntModel SymModel KeyOps SeriesModel SeriesModel2 PolyModel PolyModel2 ExnModel.
Import ListNotations.
Open Scope Z_scope.

Section X.
Context {K C Tag : Type} (KO : key_ops K) (CO : cf_ops C) (PO : tbl_policy (K * C)) (TO : tag_ops Tag).
Notation series := (series K C Tag).
Notation cache := (@pow_cache K C Tag).

(** The vector of powers of base becomes v. *)
Definition mstore (base : series) (v : list series) : M cache unit := fun m o m' =>
  match cache_store KO CO TO m base v with Ok m1 => o = Some tt /\ m' = m1 | _ => True end.
(** series.hpp:1708-1710; the multiplication and emplace_back may throw, and then the vector is as before (strong guarantee of emplace_back). *)
Fixpoint fill_powers_x (mul : series -> series -> res series) (base b : series) (fuel : nat) (v : list series) : M cache (list series) :=
  match fuel with
  | O => mret v
  | S f =>
      mcall ;;;
      p <<- mres (bind (rd v (List.length v - 1)) (fun last => mul last b)) ;;
      mcall ;;;
      mstore base (v ++ [p]) ;;;
      fill_powers_x mul base b f (v ++ [p])
  end.
(** series.hpp:1627-1716: hashing and copying the base, comparing it, creating the element (then its vector is empty: 1690), the construction of 1 (1705),
    the multiplications, and copying the result (1715) may throw. *)
Definition pow_from_cache_x (mul : series -> series -> res series) (base : series) (n : nat) : M cache series :=
  mcall ;;;
  m <<- mget ;;
  found <<- mres (cache_lookup KO CO TO m base) ;;
  let b := match found with Some e => fst e | None => base end in
  let v := match found with Some e => snd e | None => [] end in
  mstore base v ;;;
  w <<- (match v with
         | [] => mcall ;;; one <<- mres (series_of_cf KO CO PO TO (c_one CO) []) ;; mcall ;;; mstore base [one] ;;; mret [one]
         | _ => mret v
         end) ;;
  v' <<- fill_powers_x mul base b (S n - List.length w) w ;;
  mcall ;;;
  mres (rd v' n).
(** series.hpp:1764-1831, with the parameters of [series_pow] (SeriesModel2.v). *)
Definition series_pow_x (mul : series -> series -> res series) (cpow : C -> res C) (e_is_zero : bool) (un : option nat) (b : series) : M cache series :=
  mcall ;;;
  single <<- mres (is_single_cf KO b) ;;
  if (single : bool)
  then mres (if series_empty b
             then bind (cpow (c_zero CO)) (fun c => series_of_cf KO CO PO TO c [])
             else bind (it_deref b (series_begin b)) (fun e => bind (cpow (snd e)) (fun c => series_of_cf KO CO PO TO c [])))
  else if e_is_zero then mres (series_of_cf KO CO PO TO (c_one CO) [])
  else match un with
  | None => mraise
  | Some n => pow_from_cache_x mul b n
  end.
(** polynomial.hpp:2135-2183, with the parameters of [pow_poly_impl] (PolyModel2.v). *)
Definition poly_pow_x (E : mul_env K C Tag) (cpow : C -> res C) (kn : option Z) (e_is_zero : bool) (un : option nat) (x : series) : M cache series :=
  mcall ;;;
  if Nat.eqb (series_size x) 1
  then mres (bind (set_symbol_set (series_default TO) (s_ss x)) (fun retval =>
             bind (it_deref x (series_begin x)) (fun e =>
             bind (k_pow KO (fst e) kn (s_ss x)) (fun k =>
             bind (cpow (snd e)) (fun c => add_term KO CO PO true retval k c)))))
  else series_pow_x (poly_mul KO CO PO TO E) cpow e_is_zero un x.
(** src/series.cpp:72-81: [clear_series_pow_map]. *)
Definition clear_cache_x : M cache unit := fun _ o m' => o = Some tt /\ m' = [].
End X.
