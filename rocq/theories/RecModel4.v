(** Evaluation and trimming of polynomials with polynomial coefficients. *)
From Coq Require Import ZArith List Bool String Arith.
From Verif Require Import Base IntModel SymModel KeyOps SeriesModel SeriesModel2 RecModel.
Import ListNotations.
Open Scope Z_scope.
Open Scope res_scope.

Section RecEval.
Context {K Tag KI C TagI V A : Type} (KO : key_ops K) (KOI : key_ops KI).
Context (vzero vone : V) (vadd vmul : V -> V -> V) (vpow : A -> Z -> res V) (ceval : C -> res V).
(** series.hpp:3994-4060: obake::evaluate on the coefficient c is this function again (line 4054), with the same map.  Simplification: the values of keys, of
    coefficients and of the sum have one type V. *)
Definition cf_evaluate (sm : symbol_map A) (c : res (series KI C TagI)) : res V := c <- c ;; series_evaluate KOI vzero vone vadd vmul vpow ceval c sm.
(** series.hpp:3994-4060. *)
Definition rec_evaluate (x : series K (res (series KI C TagI)) Tag) (sm : symbol_map A) : res V := series_evaluate KO vzero vone vadd vmul vpow (cf_evaluate sm) x sm.
End RecEval.

Section RecTrim.
Context {K Tag KI C TagI : Type} (KO : key_ops K) (TO : tag_ops Tag) (KOI : key_ops KI) (CO : cf_ops C) (POI : tbl_policy (KI * C)) (TOI : tag_ops TagI) (EI : PolyModel.mul_env KI C TagI) (PO : tbl_policy (K * res (series KI C TagI))).
Notation inner := (series KI C TagI).
Notation outer := (series K (res inner) Tag).
(** obake::trim on the coefficient (series.hpp:4178). *)
Definition cf_trim (c : res inner) : res inner := c <- c ;; series_trim KOI CO POI TOI c.
(** series.hpp:4103-4183: [series_default_trim_impl]; the number of segments is the one of the new series (4158). *)
Definition rec_trim (x : outer) : res outer :=
  let ss := s_ss x in
  trim_v <- rfold (fun v e => k_trim_identify KO v (fst e) ss) (terms x) (repeat 1 (List.length ss)) ;;
  let flags := combine (combine (seq 0 (List.length ss)) ss) trim_v in
  let si := map (fun p => fst (fst p)) (filter (fun p => negb (snd p =? 0)) flags) in
  let new_ss := map (fun p => snd (fst p)) (filter (fun p => snd p =? 0) flags) in
  r <- set_symbol_set (series_default TO) new_ss ;;
  let r := set_tag r (s_tag x) in
  r <- set_n_segments r (get_s_size r) ;;
  rfold (fun r e => k <- k_trim KO (fst e) si ss ;; add_term KO (rec_cf KOI CO POI TOI EI) PO true r k (cf_trim (snd e))) (terms x) r.
End RecTrim.
