(** Model of the operations of power_series.hpp which can be interrupted by an exception: see ExnModel.v for the conventions. *)
From Coq Require Import ZArith List Bool String Arith.
From Verif Require Import Base IntModel SymModel KeyOps SeriesModel SeriesModel2 PolyModel PolyModel2 PSModel ExnModel.
Import ListNotations.
Open Scope Z_scope.
Open Scope res_scope.

Section X.
Context {K C : Type} (KO : key_ops K) (CO : cf_ops C) (PO : tbl_policy (K * C)) (tD : ity).
Notation series := (series K C trunc_t).
Notation store := (@store K C trunc_t).
Notation TO := ps_tag_ops.

(** Assignment to the tag: the flyweight may have to be inserted into its table before. *)
Definition x_set_tag (t : trunc_t) : M series unit := mcall ;;; (fun s o s' => o = Some tt /\ s' = set_tag s t).

(** power_series.hpp:420-436 and 439-455: the predicates given to filter. *)
Definition kept_degree (d : Z) (ss : symbol_set) (e : K * C) : res bool := n <- k_degree KO (fst e) ss ;; Ok (negb (clt tD tD d n)).
(** power_series.hpp:420-436 and 439-455 (with the previous definition). *)
Definition kept_p_degree (d : Z) (s ss : symbol_set) (e : K * C) : res bool := n <- k_p_degree KO (fst e) (ss_intersect_idx s ss) ss ;; Ok (negb (clt tD tD d n)).
(** power_series.hpp:420-436 and 439-455 (with the previous definition). *)
Definition x_truncate_degree (d : Z) : M series unit := ps <<- mget ;; x_filter KO (kept_degree d (s_ss ps)).
(** power_series.hpp:420-436 and 439-455 (with the previous definition). *)
Definition x_truncate_p_degree (d : Z) (s : symbol_set) : M series unit := ps <<- mget ;; mcall ;;; x_filter KO (kept_p_degree d s (s_ss ps)).

(** power_series.hpp:463-493 and 496-526: [set_truncation_impl], with the catch blocks of lines 481-489 and 514-522. *)
Definition x_set_truncation (tV : ity) (d : Z) : M series unit :=
  deg <<- mres (safe_cast_int tD tV d) ;;
  mtry (x_truncate_degree deg ;;; x_set_tag (total_truncation deg)) (series_clear TO).
(** power_series.hpp:463-493 and 496-526 (with the previous definition). *)
Definition x_set_truncation_p (tV : ity) (d : Z) (s : symbol_set) : M series unit :=
  deg <<- mres (safe_cast_int tD tV d) ;;
  mtry (x_truncate_p_degree deg s ;;; x_set_tag (partial_truncation deg s)) (series_clear TO).

(** power_series.hpp:548-561: [truncate]. *)
Definition x_ps_truncate : M series unit :=
  ps <<- mget ;;
  match s_tag ps with
  | no_truncation => mret tt
  | total_truncation d => x_truncate_degree d
  | partial_truncation d s => x_truncate_p_degree d s
  end.

(** power_series.hpp:1159-1217: [ps_in_place_addsub_impl], algorithm 2.  [y] is LY or LX (the same object); the operands are lvalues or rvalues. *)
Definition x_ps_in_place_addsub (sign : bool) (y : loc) (rx ry : bool) : M store unit :=
  xv <<- rd_loc LX ;; yv <<- rd_loc y ;;
  let op := x_in_place_addsub KO CO PO TO sign y rx ry in
  let same := op ;;; on LX (x_set_tag (s_tag xv)) in
  let adopt tg := op ;;; on LX (x_set_tag tg) ;;; on LX x_ps_truncate in
  match s_tag xv, s_tag yv with
  | no_truncation, no_truncation => same
  | total_truncation d, total_truncation e => if negb (d =? e) then mraise else same
  | partial_truncation d s, partial_truncation e u => if negb ((d =? e) && ss_eqb s u) then mraise else same
  | _, no_truncation => adopt (s_tag xv)
  | no_truncation, _ => adopt (s_tag yv)
  | _, _ => mraise
  end.
(** power_series.hpp:1143-1157: algorithm 1, y is a scalar. *)
Definition x_ps_in_place_scalar (sign : bool) (c : C) : M series unit := x_in_place_scalar KO CO PO sign c ;;; x_ps_truncate.
(** power_series.hpp:1008-1067: [ps_addsub_impl], algorithm 2; the return value is in LR. *)
Definition x_ps_addsub (sign : bool) (y : loc) (rx ry : bool) : M store unit :=
  xv <<- rd_loc LX ;; yv <<- rd_loc y ;;
  let op := x_addsub KO CO PO TO sign y rx ry in
  let same := op ;;; on LR (x_set_tag (s_tag xv)) in
  let adopt tg := op ;;; on LR (x_set_tag tg) ;;; on LR x_ps_truncate in
  match s_tag xv, s_tag yv with
  | no_truncation, no_truncation => same
  | total_truncation d, total_truncation e => if negb (d =? e) then mraise else same
  | partial_truncation d s, partial_truncation e u => if negb ((d =? e) && ss_eqb s u) then mraise else same
  | _, no_truncation => adopt (s_tag xv)
  | no_truncation, _ => adopt (s_tag yv)
  | _, _ => mraise
  end.
End X.
