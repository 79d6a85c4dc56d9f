(** Serialization of symbol sets, monomials, truncations and series.
    Simplifications: an archive is the sequence of the values written to it (class and version information of Boost.Serialization is not modelled); reading past its end or reading a value that is not
    one of the expected type throws boost::archive::archive_exception; the reservation of memory for containers does not fail. *)
From Coq Require Import ZArith List Bool String.
From Verif Require Import Base KpackModel IntModel SymModel PMonModel DPMModel KeyOps SeriesModel PSModel.
Import ListNotations.
Open Scope Z_scope.
Open Scope res_scope.

(** A value in an archive. *)
Inductive tok : Type := TI (z : Z) | TS (s : string).
Definition archive := list tok.

(** ar << n, ar >> n, for integers of type t; the same for strings. *)
Definition out_int (n : Z) : archive := [TI n].
Definition in_int (t : ity) (ar : archive) : res (Z * archive) :=
  match ar with
  | TI n :: ar' => if in_ity t n then Ok (n, ar') else Throw archive_exception
  | _ => Throw archive_exception
  end.
Definition out_string (s : string) : archive := [TS s].
Definition in_string (ar : archive) : res (string * archive) :=
  match ar with
  | TS s :: ar' => Ok (s, ar')
  | _ => Throw archive_exception
  end.
(** for (auto &n : seq) { ar >> n; } over n elements. *)
Fixpoint in_n {A : Type} (rd : archive -> res (A * archive)) (n : nat) (ar : archive) : res (list A * archive) :=
  match n with
  | O => Ok ([], ar)
  | S n' => '(a, ar1) <- rd ar ;; '(l, ar2) <- in_n rd n' ar1 ;; Ok (a :: l, ar2)
  end.

(** symbols.hpp:161-190: [save], [load] of symbol_set; adopt_sequence assumes that the sequence is sorted. *)
Definition ss_save (ss : symbol_set) : archive := out_int (Z.of_nat (List.length ss)) ++ List.concat (map out_string ss).
(** symbols.hpp:161-190 (with the previous definition). *)
Definition ss_load (ar : archive) : res (symbol_set * archive) :=
  '(size, ar1) <- in_int size_t ar ;;
  '(seq, ar2) <- in_n in_string (Z.to_nat size) ar1 ;;
  Ok (seq, ar2).

(** packed_monomial.hpp:134-138: [serialize]. *)
Definition pm_save (p : Z) : archive := out_int p.
(** packed_monomial.hpp:134-138 (with the previous definition). *)
Definition pm_load (D : kdata) (ar : archive) : res (Z * archive) := in_int (kd_ty D) ar.

(** d_packed_monomial.hpp:193-212: [save], [load]. *)
Definition dpm_save (d : dpm) : archive := out_int (Z.of_nat (List.length d)) ++ List.concat (map out_int d).
(** d_packed_monomial.hpp:193-212 (with the previous definition). *)
Definition dpm_load (D : kdata) (ar : archive) : res (dpm * archive) :=
  '(size, ar1) <- in_int size_t ar ;;
  '(c, ar2) <- in_n (in_int (kd_ty D)) (Z.to_nat size) ar1 ;;
  Ok (c, ar2).

(** power_series.hpp:97-159: [save], [load] of trunc_t (the index of the variant, then the value; no_truncation writes nothing, power_series.hpp:54-61; std::pair writes its members in order), and
    power_series.hpp:232-256, those of the tag. *)
Definition trunc_save (t : trunc_t) : archive :=
  match t with
  | no_truncation => out_int 0
  | total_truncation d => out_int 1 ++ out_int d
  | partial_truncation d ss => out_int 2 ++ out_int d ++ ss_save ss
  end.
(** power_series.hpp:97-159 (with the previous definition). *)
Definition trunc_load (tD : ity) (ar : archive) : res (trunc_t * archive) :=
  '(idx, ar1) <- in_int size_t ar ;;
  if idx =? 0 then Ok (no_truncation, ar1)
  else if idx =? 1 then '(n, ar2) <- in_int tD ar1 ;; Ok (total_truncation n, ar2)
  else if idx =? 2 then '(n, ar2) <- in_int tD ar1 ;; '(ss, ar3) <- ss_load ar2 ;; Ok (partial_truncation n ss, ar3)
  else Throw invalid_argument.

Section Ser.
Context {K C Tag : Type} (KO : key_ops K) (CO : cf_ops C) (PO : tbl_policy (K * C)) (TO : tag_ops Tag).
(** The operators << and >> of the keys, the coefficients and the tag. *)
Context (k_save : K -> archive) (k_load : archive -> res (K * archive)) (c_save : C -> archive) (c_load : archive -> res (C * archive)) (t_save : Tag -> archive) (t_load : archive -> res (Tag * archive)).
Notation series := (series K C Tag).

(** series.hpp:1427-1443: [save]. *)
Definition table_save (t : table K C) : archive :=
  out_int (Z.of_nat (List.length t)) ++ List.concat (map (fun e => k_save (fst e) ++ c_save (snd e)) t).
(** series.hpp:1427-1443 (with the previous definition). *)
Definition series_save (s : series) : archive :=
  out_int (Z.of_nat (s_log2 s)) ++ t_save (s_tag s) ++ ss_save (s_ss s) ++ List.concat (map table_save (s_tables s)).

(** series.hpp:1486-1503: the terms of one table. *)
Fixpoint load_terms (ss : symbol_set) (n : nat) (t : table K C) (ar : archive) : res (table K C * archive) :=
  match n with
  | O => Ok (t, ar)
  | S n' =>
      '(k, ar1) <- k_load ar ;;
      '(c, ar2) <- c_load ar1 ;;
      t' <- series_add_term_table KO CO PO true false false false true ss 0 t k c ;;
      load_terms ss n' t' ar2
  end.
(** series.hpp:1481-1504: all the tables. *)
Fixpoint load_tables (ss : symbol_set) (ts : list (table K C)) (ar : archive) : res (list (table K C) * archive) :=
  match ts with
  | [] => Ok ([], ar)
  | t :: ts' =>
      '(size, ar1) <- in_int size_t ar ;;
      '(t', ar2) <- load_terms ss (Z.to_nat size) t ar1 ;;
      '(ts'', ar3) <- load_tables ss ts' ar2 ;;
      Ok (t' :: ts'', ar3)
  end.
(** series.hpp:1456-1504: the body of the try block after the number of segments. *)
Definition load_body (s : series) (ar : archive) : res (series * archive) :=
  '(tg, ar1) <- t_load ar ;;
  '(ss, ar2) <- ss_load ar1 ;;
  '(ts, ar3) <- load_tables ss (s_tables s) ar2 ;;
  Ok (Series ts (s_log2 s) tg ss, ar3).
(** series.hpp:1444-1512: [load] into the object s: the outcome (the rest of the archive) and the new value of the object. An exception leaves it cleared, with the number of segments set so far. *)
Definition series_load (s : series) (ar : archive) : res archive * series :=
  let s0 := series_clear TO s in
  match ('(l, ar1) <- in_int uint32 ar ;; s1 <- set_n_segments s0 (Z.to_nat l) ;; Ok (s1, ar1)) with
  | Ok (s1, ar1) =>
      match load_body s1 ar1 with
      | Ok (s2, ar2) => (Ok ar2, s2)
      | Throw e => (Throw e, series_clear TO s1)
      | UB => (UB, s1)
      end
  | Throw e => (Throw e, series_clear TO s0)
  | UB => (UB, s0)
  end.
End Ser.
