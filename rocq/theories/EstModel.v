(** Model of polynomial.hpp:465-794, [poly_mul_estimate_product_size]: the estimate of the number of terms of a product and the number of
    term by term multiplications, and of the choice of the number of segments, polynomial.hpp:857-902.
    Random numbers: std::shuffle and std::uniform_int_distribution are implementation defined; here they are arbitrary
    functions of the trial (which seeds the engine) and of what was drawn before. *)
From Coq Require Import ZArith List Bool String Arith.
From Verif Require Import Base SymModel KeyOps SeriesModel PolyModel.
Import ListNotations.
Open Scope Z_scope.
Open Scope res_scope.

(** tbb::parallel_reduce with a sum, polynomial.hpp:590-621 and 655-784: [body l cur] runs a block l of the range on the value cur.  A block may
    continue the value of a previous one, or start at zero and be added at the end; the first exception met is the one rethrown, here any. *)
Inductive reduce {A : Type} (body : list A -> Z -> res Z) : Z -> list A -> res Z -> Prop :=
  | red_run : forall cur l, reduce body cur l (body l cur)
  | red_seq : forall cur l1 l2 c1 r, reduce body cur l1 (Ok c1) -> reduce body c1 l2 r -> reduce body cur (l1 ++ l2) r
  | red_split : forall cur l1 l2 a b, reduce body cur l1 (Ok a) -> reduce body 0 l2 (Ok b) -> reduce body cur (l1 ++ l2) (Ok (a + b))
  | red_fail1 : forall cur l1 l2 r, reduce body cur l1 r -> is_ok r = false -> reduce body cur (l1 ++ l2) r
  | red_fail2 : forall cur c l1 l2 r, reduce body c l2 r -> is_ok r = false -> reduce body cur (l1 ++ l2) r.

(** What is left to the implementation of the random numbers, and to the floating point computation of the number of trials. *)
Record rand : Type := {
  (** std::shuffle with the engine of trial i, polynomial.hpp:686. *)
  r_shuffle : nat -> list nat -> list nat;
  (** The number drawn by trial i from [0, limit - 1] (polynomial.hpp:745), after those with the limits given. *)
  r_pick : nat -> list nat -> nat -> nat;
  (** polynomial.hpp:633: boost::numeric_cast<unsigned>(5e-8 * tot_n_mults); None: it throws. *)
  r_cast : Z -> option nat
}.

Section Est.
Context {K C Tag : Type} (KO : key_ops K) (E : mul_env K C Tag) (R : rand) (t : option (trunc K)) (ss : symbol_set) (x y : list (K * C)).

(** polynomial.hpp:494-571: the degrees of x; the indices into y and the degrees of y, sorted by degree. *)
Definition est_data : res (list Z * (list nat * list Z)) :=
  match t with
  | None => Ok ([], (seq 0 (List.length y), []))
  | Some t =>
      v1_deg <- degree_vector t ss x ;;
      v2_deg <- degree_vector t ss y ;;
      let vidx2 := me_sort E (fun i => nth i v2_deg 0) (seq 0 (List.length y)) in
      v2_deg <- permuted v2_deg vidx2 ;;
      Ok (v1_deg, (vidx2, v2_deg))
  end.

Section Data.
Variables (v1_deg : list Z) (vidx2 : list nat) (v2_deg : list Z).

(** polynomial.hpp:601-616 and 696-732: how many terms of y are multiplied by the term idx1 of x. *)
Definition est_limit (idx1 : nat) : res nat :=
  match t with
  | None => Ok (List.length vidx2)
  | Some t => d1 <- rd v1_deg idx1 ;; upper t v2_deg d1 0 (List.length v2_deg)
  end.

(** polynomial.hpp:599-619: a block of the computation of the number of multiplications. *)
Definition mults_block (idxs : list nat) (cur : Z) : res Z :=
  rfold (fun cur idx1 => n <- est_limit idx1 ;; Ok (cur + Z.of_nat n)) idxs cur.

(** polynomial.hpp:693-756: the products of trial i: stops at the first that has been seen before.  [ls] is the set of the products seen,
    [lims] the limits used so far, [acc_y] their sum. *)
Fixpoint est_products (i : nat) (idxs : list nat) (lims : list nat) (ls : list K) (acc_y : Z) : res (list K * Z) :=
  match idxs with
  | [] => Ok (ls, acc_y)
  | idx1 :: idxs' =>
      limit <- est_limit idx1 ;;
      if Nat.eqb limit 0 then est_products i idxs' lims ls acc_y
      else
        let acc_y := acc_y + Z.of_nat limit in
        idx2 <- rd vidx2 (r_pick R i lims limit) ;;
        t1 <- rd x idx1 ;;
        t2 <- rd y idx2 ;;
        k <- k_mul KO (fst t1) (fst t2) ss ;;
        if existsb (k_eqb KO k) ls then Ok (ls, acc_y)
        else est_products i idxs' (limit :: lims) (k :: ls) acc_y
  end.

(** polynomial.hpp:760-775: what a trial adds. *)
Definition est_trial (i : nat) (vidx1_copy : list nat) : res Z :=
  '(ls, acc_y) <- est_products i vidx1_copy [] [] 0 ;;
  let count := Z.of_nat (List.length ls) in
  Ok (if Nat.eqb (List.length ls) (List.length vidx1_copy) then acc_y else (3 * count * count) / 2).

(** polynomial.hpp:657-783: a block of trials; the copy of vidx1 is made once for the block, and shuffled again by each trial. *)
Definition est_block (trials : list nat) (cur : Z) : res Z :=
  '(_, cur) <- rfold (fun '(vidx1_copy, cur) i =>
        let vidx1_copy := r_shuffle R i vidx1_copy in
        c <- est_trial i vidx1_copy ;;
        Ok (vidx1_copy, cur + c)) trials (seq 0 (List.length x), cur) ;;
  Ok cur.
End Data.

(** polynomial.hpp:574-623: the number of multiplications, over all splits. *)
Inductive tot_n_mults (v1_deg : list Z) (vidx2 : list nat) (v2_deg : list Z) : res Z -> Prop :=
  | tm_all : t = None -> tot_n_mults v1_deg vidx2 v2_deg (Ok (Z.of_nat (List.length x) * Z.of_nat (List.length vidx2)))
  | tm_trunc : forall r, t <> None -> reduce (mults_block v1_deg vidx2 v2_deg) 0 (seq 0 (List.length x)) r -> tot_n_mults v1_deg vidx2 v2_deg r.

(** polynomial.hpp:478-794: the outcomes over all splits: the estimate and the number of multiplications. *)
Inductive estimate : res (Z * Z) -> Prop :=
  | es_data_fail : forall e, est_data = Throw e -> estimate (Throw e)
  | es_data_ub : est_data = UB -> estimate UB
  | es_tot_fail : forall v1 vi v2 e, est_data = Ok (v1, (vi, v2)) -> tot_n_mults v1 vi v2 (Throw e) -> estimate (Throw e)
  | es_tot_ub : forall v1 vi v2, est_data = Ok (v1, (vi, v2)) -> tot_n_mults v1 vi v2 UB -> estimate UB
  | es_cast : forall v1 vi v2 tot, est_data = Ok (v1, (vi, v2)) -> tot_n_mults v1 vi v2 (Ok tot) -> r_cast R tot = None -> estimate (Throw bad_numeric_cast)
  | es_trials : forall v1 vi v2 tot n r, est_data = Ok (v1, (vi, v2)) -> tot_n_mults v1 vi v2 (Ok tot) -> r_cast R tot = Some n ->
      let n := Nat.max 5 n in
      reduce (est_block v1 vi v2) 0 (seq 0 n) r ->
      estimate (c_est <- r ;; if Nat.eqb n 0 then Throw zero_division_error else
                let ret := c_est / Z.of_nat n in Ok (if ret =? 0 then 1 else ret, tot)).
End Est.

(** mppp::integer::nbits. *)
Definition nbits (z : Z) : Z := if z =? 0 then 0 else Z.log2 (Z.abs z) + 1.

(** polynomial.hpp:894-902: the log2 of the number of segments; [sparse]: est_sp is finite and less than 1E-3. *)
Definition est_log2 (sparse : bool) (est_nterms avg_term_size : Z) : Z :=
  let seg_size := if sparse then 20 else 200 in
  Z.min (nbits (est_nterms * avg_term_size / (seg_size * 1024))) (Z.of_nat max_log2_size).
