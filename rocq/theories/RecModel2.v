(** Degrees and truncation of polynomials with polynomial coefficients. *)
From Coq Require Import ZArith List Bool String Arith.
From Verif Require Import Base IntModel SymModel KeyOps SeriesModel SeriesModel2 PolyModel PolyModel2.
Import ListNotations.
Open Scope Z_scope.
Open Scope res_scope.

Section RecDeg.
Context {K Tag KI C TagI : Type} (KO : key_ops K) (KOI : key_ops KI) (builtins : bool) (tK tC : ity).
Notation inner := (series KI C TagI).
Notation outer := (series K (res inner) Tag).

(** series.hpp:3685-3692, 3828-3836: the degrees of the key (type tK) and of the coefficient (type tC) are converted to the type of their sum when
    passed to safe_int_add.  Simplification: series.hpp:3693-3697 and 3837-3841 (degrees which are not integers, or the Microsoft compiler) are not modelled. *)
Definition d_sum (dk dc : res Z) : res Z :=
  a <- dk ;; b <- dc ;; safe_int_add builtins (common tK tC) (wrap (common tK tC) a) (wrap (common tK tC) b).
(** series.hpp:3670-3713: [d_extractor], algorithm 1 (key and coefficient have a degree). *)
Definition rec_d (ss : symbol_set) (e : K * res inner) : res Z := d_sum (k_degree KO (fst e) ss) (c <- snd e ;; series_degree KOI c).
(** series.hpp:3811-3859. *)
Definition rec_pd (s ss : symbol_set) (e : K * res inner) : res Z :=
  d_sum (k_p_degree KO (fst e) (ss_intersect_idx s ss) ss) (c <- snd e ;; series_p_degree KOI c s).
(** series.hpp:3716-3744. *)
Definition rec_degree (x : outer) : res Z := max_degree (rec_d (s_ss x)) x.
(** series.hpp:3862-3898. *)
Definition rec_p_degree (x : outer) (s : symbol_set) : res Z := max_degree (rec_pd s (s_ss x)) x.
(** polynomial.hpp:2364-2378: a term is removed or kept as a whole, with its coefficient. *)
Definition rec_truncate_degree (tV : ity) (lim : Z) (x : outer) : res outer :=
  series_filter_res (fun e => d <- rec_d (s_ss x) e ;; Ok (negb (clt tV (common tK tC) lim d))) x.
(** polynomial.hpp:2426-2445. *)
Definition rec_truncate_p_degree (tV : ity) (lim : Z) (s : symbol_set) (x : outer) : res outer :=
  series_filter_res (fun e => d <- rec_pd s (s_ss x) e ;; Ok (negb (clt tV (common tK tC) lim d))) x.
End RecDeg.
