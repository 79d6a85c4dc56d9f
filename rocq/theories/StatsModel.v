(** Model of table_stats(), series.hpp:1384-1409. *)
From Coq Require Import ZArith List Bool String Arith.
From Verif Require Import Base SymModel KeyOps SeriesModel PrintModel SizeModel.
Import ListNotations.
Open Scope Z_scope.
Open Scope res_scope.

Section Stats.
Context {K C Tag : Type} (B : sizes K C Tag).
(** operator<< of the quotient of two numbers converted to double, series.hpp:1398: a parameter. *)
Context (show_quotient : Z -> Z -> string).

(** series.hpp:1400-1402: std::minmax_element with the comparison of sizes: the first of the smallest tables and the last of the largest. *)
Definition minmax_tables (first : table K C) (rest : list (table K C)) : table K C * table K C :=
  fold_left (fun mm t =>
    (if (List.length t <? List.length (fst mm))%nat then t else fst mm,
     if (List.length t <? List.length (snd mm))%nat then snd mm else t)) rest (first, first).

(** series.hpp:1386-1409, with the byte size the call of line 1406 returns.  On an empty vector of tables the iterators of line 1403 are past the end. *)
Definition stats_text (s : series K C Tag) (bytes : Z) : res string :=
  let n := Z.of_nat (series_size s) in
  let ntables := Z.of_nat (List.length (s_tables s)) in
  middle <- (if negb (n =? 0) then
      mm <- match s_tables s with [] => UB | t :: l => Ok (minmax_tables t l) end ;;
      Ok ("Average terms per table           : " ++ show_quotient n ntables ++ nl ++
          "Min/max terms per table           : " ++ z_string (Z.of_nat (List.length (fst mm))) ++ "/" ++ z_string (Z.of_nat (List.length (snd mm))) ++ nl)%string
    else Ok ""%string) ;;
  Ok ("Total number of terms             : " ++ z_string n ++ nl ++
      "Total number of tables            : " ++ z_string ntables ++ nl ++
      middle ++
      "Total size in bytes               : " ++ z_string bytes ++ nl)%string.
(** series.hpp:1386-1409: the byte size may depend on the schedule of a parallel reduction (a relation). *)
Definition table_stats (s : series K C Tag) (out : res string) : Prop := exists bytes, byte_size B s bytes /\ out = stats_text s bytes.
End Stats.
