(** Model of the byte size of series, series.hpp:1912-1976, and of the estimate of the average size of the terms of a product,
    polynomial.hpp:382-442.  std::size_t has 64 bits; sums wrap around. *)
From Coq Require Import ZArith List Bool String Arith Permutation.
From Verif Require Import Base SymModel KeyOps SeriesModel XoroModel.
Import ListNotations.
Open Scope Z_scope.
Open Scope res_scope.

Definition usize (z : Z) : Z := ubits 64 z.

(** The sizes of objects: byte_size() of keys, coefficients and tags (None: not implemented), and sizeof() of the types. *)
Record sizes (K C Tag : Type) : Type := {
  bs_key : K -> Z;
  bs_cf : C -> Z;
  bs_tag : option (Tag -> Z);
  so_series : Z; so_table : Z; so_term : Z; so_key : Z; so_cf : Z; so_tag : Z
}.
Arguments bs_key {K C Tag}. Arguments bs_cf {K C Tag}. Arguments bs_tag {K C Tag}. Arguments so_series {K C Tag}. Arguments so_table {K C Tag}.
Arguments so_term {K C Tag}. Arguments so_key {K C Tag}. Arguments so_cf {K C Tag}. Arguments so_tag {K C Tag}.

Section Size.
Context {K C Tag : Type} (B : sizes K C Tag).

(** series.hpp:1914-1929: [st_byte_size]. *)
Definition st_byte_size (tab : table K C) : Z :=
  fold_left (fun ret e => usize (ret + usize (usize (bs_key B (fst e) + bs_cf B (snd e)) + usize (so_term B - usize (so_key B + so_cf B))))) tab 0.

(** series.hpp:1947-1953: a block of the reduction. *)
Definition size_block (tabs : list (table K C)) (init : Z) : Z := fold_left (fun init tab => usize (init + st_byte_size tab)) tabs init.
(** series.hpp:1945-1954: tbb::parallel_reduce: a block continues the value of the previous one or starts at zero and is added. *)
Inductive size_reduce : Z -> list (table K C) -> Z -> Prop :=
  | sr_run : forall cur l, size_reduce cur l (size_block l cur)
  | sr_seq : forall cur l1 l2 a b, size_reduce cur l1 a -> size_reduce a l2 b -> size_reduce cur (l1 ++ l2) b
  | sr_join : forall cur l1 l2 a b, size_reduce cur l1 a -> size_reduce 0 l2 b -> size_reduce cur (l1 ++ l2) (usize (a + b)).

(** series.hpp:1960-1967. *)
Definition add_tag (s : series K C Tag) (retval : Z) : Z :=
  match bs_tag B with
  | Some f => usize (usize (retval + f (s_tag s)) - so_tag B)
  | None => retval
  end.
(** series.hpp:1930-1970. *)
Inductive byte_size (s : series K C Tag) : Z -> Prop :=
  | bz_many : forall r, (1 < List.length (s_tables s))%nat -> size_reduce 0 (s_tables s) r ->
      byte_size s (add_tag s (usize (usize (so_series B + usize (Z.of_nat (List.length (s_tables s)) * so_table B)) + r)))
  | bz_one : forall t, s_tables s = [t] -> byte_size s (add_tag s (usize (usize (so_series B + usize (1 * so_table B)) + st_byte_size t)))
  | bz_none : s_tables s = [] -> byte_size s (add_tag s (usize (so_series B + usize (0 * so_table B)))).
End Size.

(** polynomial.hpp:382-442: [poly_mul_impl_estimate_average_term_size] for the pairs of indices drawn (10 of them; std::uniform_int_distribution gives
    indices in the range of the vectors). *)
Section Average.
Context {K C Tag : Type} (KO : key_ops K) (CO : cf_ops C) (B : sizes K C Tag) (ss : symbol_set) (x y : list (K * C)).
(** polynomial.hpp:421-433. *)
Definition avg_acc (draws : list (nat * nat)) : res Z :=
  rfold (fun acc p =>
    t1 <- rd x (fst p) ;; t2 <- rd y (snd p) ;;
    k <- k_mul KO (fst t1) (fst t2) ss ;;
    let c := c_mul CO (snd t1) (snd t2) in
    Ok (usize (acc + usize (usize (bs_key B k + bs_cf B c) + usize (so_term B - usize (so_cf B + so_key B)))))) draws 0.
(** polynomial.hpp:410. *)
Definition ntrials : nat := 10.
(** polynomial.hpp:413-442. *)
Definition avg_term_size (draws : list (nat * nat)) : res Z :=
  acc <- avg_acc draws ;;
  let ret := usize (acc / Z.of_nat ntrials + (if acc mod Z.of_nat ntrials =? 0 then 0 else 1)) in
  Ok (usize (ret + (if ret =? 0 then 1 else 0))).
End Average.
