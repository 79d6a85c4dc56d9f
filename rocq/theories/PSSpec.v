(** Specification vocabulary for power series. *)
From Coq Require Import ZArith List Bool String.
From Verif Require Import Base IntModel IntSpec SymModel SymSpec PMonSpec KeyOps SeriesModel SeriesSpec PolySpec PSModel.
Import ListNotations.
Open Scope Z_scope.

(** The symbols whose exponents the truncation counts. *)
Definition counted (t : trunc_t) : string -> bool :=
  match t with partial_truncation _ s => one_of s | _ => all_symbols end.
(** The monomial with exponents ws over the symbols us is kept by the truncation. *)
Definition within (t : trunc_t) (us : symbol_set) (ws : list Z) : bool :=
  match t with
  | no_truncation => true
  | total_truncation d => degree_of all_symbols us ws <=? d
  | partial_truncation d s => degree_of (one_of s) us ws <=? d
  end.
(** The values a truncation can have: the limit is a value of the degree type, symbol sets are sorted. *)
Definition trunc_ok (tD : ity) (t : trunc_t) : Prop :=
  match t with
  | no_truncation => True
  | total_truncation d => has_value tD d
  | partial_truncation d s => has_value tD d /\ sorted_set s
  end.

(** Every term of the power series is kept by its truncation. *)
Definition respects {K C : Type} (KS : key_sem K) (s : series K C trunc_t) : Prop :=
  forall k c, In (k, c) (terms s) -> within (s_tag s) (s_ss s) (ks_exps KS (List.length (s_ss s)) k) = true.

(** The truncation of the result of a binary operation: the common one, or that of the only truncated operand. *)
Definition joint (a b t : trunc_t) : Prop := (a = b /\ t = a) \/ (a = no_truncation /\ t = b) \/ (b = no_truncation /\ t = a).
(** Two different truncations. *)
Definition clash (a b : trunc_t) : Prop := a <> no_truncation /\ b <> no_truncation /\ a <> b.

(** The degree, over the symbols counted by the truncation t, of some term of s is not computable in the degree type. *)
Definition degree_lost {K C : Type} (KS : key_sem K) (t : trunc_t) (s : series K C trunc_t) : Prop :=
  t <> no_truncation /\ exists k c, In (k, c) (terms s) /\ ~ ks_deg_fits KS (selected (counted t) (s_ss s) (ks_exps KS (List.length (s_ss s)) k)).

(** No term of s has a negative degree in the symbols counted by the truncation. *)
Definition no_negative {K C : Type} (KS : key_sem K) (t : trunc_t) (s : series K C trunc_t) : Prop :=
  t = no_truncation \/ forall k c, In (k, c) (terms s) -> 0 <= degree_of (counted t) (s_ss s) (ks_exps KS (List.length (s_ss s)) k).

(** The coefficients of the n-th power when every multiplication by x is truncated (compare [power_coef] in PolySpec.v). *)
Fixpoint truncated_power_coef {K C : Type} (KS : key_sem K) (CO : cf_ops C) (t : trunc_t) (us : symbol_set) (x : series K C trunc_t) (n : nat) (ws : list Z) : C :=
  match n with
  | O => if vec_eqb ws (repeat 0 (List.length us)) then c_one CO else c_zero CO
  | S n' => if within t us ws
            then csum CO (map (fun e => c_mul CO (snd e) (truncated_power_coef KS CO t us x n' (vminus ws (spread (s_ss x) us (ks_exps KS (List.length (s_ss x)) (fst e)))))) (terms x))
            else c_zero CO
  end.

(** The exponents, over the symbols us, of the monomial s. *)
Definition unit_exps (us : symbol_set) (s : string) : list Z := map (fun z => if String.eqb z s then 1 else 0) us.
(** The series r is the symbol s, over the symbols u: the coefficient of the monomial s is one, the others are zero. *)
Definition is_symbol {K C Tag : Type} (KS : key_sem K) (CO : cf_ops C) (u : symbol_set) (s : string) (r : series K C Tag) : Prop :=
  s_ss r = u /\ forall us ws, covers us r -> coef KS CO us r ws = if vec_eqb ws (unit_exps us s) then c_one CO else c_zero CO.
(** [k_of_ints] is the construction of keys from lists of exponents that are 0 or 1. *)
Definition constructs {K : Type} (KS : key_sem K) (k_of_ints : list Z -> res K) : Prop :=
  forall vs, Forall (fun v => v = 0 \/ v = 1) vs -> Z.of_nat (List.length vs) <= imax int64 ->
  (ks_fits KS vs /\ exists k, k_of_ints vs = Ok k /\ ks_valid KS (List.length vs) k /\ ks_exps KS (List.length vs) k = vs) \/
  (~ ks_fits KS vs /\ (k_of_ints vs = Throw overflow_error \/ k_of_ints vs = Throw safe_cast_failure)).
