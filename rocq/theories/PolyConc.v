(** Model of the concurrent execution of the segment tasks of the multi-threaded multiplication (polynomial.hpp:1248-1582).
    tbb::parallel_for splits the range of segments into blocks in an unspecified way and runs the blocks on any number of
    threads; here every block is a worker and any interleaving of the workers' accesses to the tables is possible.
    The other data (v1, v2, the degrees, vseg1, vseg2, ss) is only read.  An exception thrown by a block stops it, cancels other blocks (here: possibly
    at any point, an over-approximation) and is rethrown in the caller (one of them, if there are several), which clears the result (lines 1575-1581).
    Memory model: the workers' accesses are interleaved (sequential consistency); [mt_race_free] is what justifies this. *)
From Coq Require Import ZArith List Bool String Arith Permutation.
From Verif Require Import Base SymModel KeyOps SeriesModel SeriesModel2 PolyModel.
Import ListNotations.
Open Scope Z_scope.
Open Scope res_scope.

(** What an expression can throw (polynomial.hpp:1555-1581: the exceptions of the tasks). *)
Inductive failure : Type := FThrow (e : exn) | FUB.
Definition failed {A : Type} (f : failure) : res A := match f with FThrow e => Throw e | FUB => UB end.

Section Conc.
Context {K C Tag : Type} (KO : key_ops K) (CO : cf_ops C) (PO : tbl_policy (K * C)) (TO : tag_ops Tag) (E : mul_env K C Tag).
Notation series := (series K C Tag).
Notation term := (K * C)%type.

(** polynomial.hpp:1248-1553: what a worker does to a table: multiply and accumulate a pair of terms (lines 1354-1384, 1489-1519); erase the zeros (1395-1405, 1530-1540);
    check the size (1409-1415, 1544-1550). [IFail]: the computation of the pairs failed. *)
Inductive instr : Type :=
  | IAcc (p : term * term)
  | IErase
  | ICheck
  | IFail (f : failure).
Definition exec (ss : symbol_set) (log2 : nat) (i : instr) (tab : table K C) : res (table K C) :=
  match i with
  | IAcc p => accumulate KO CO PO ss tab p
  | IErase => Ok (erase_zeros CO tab)
  | ICheck => if max_table_size log2 <? Z.of_nat (List.length tab) then Throw overflow_error else Ok tab
  | IFail f => failed f
  end.

(** polynomial.hpp:1248-1553: the program of a segment, given the pairs of terms to be multiplied into it. *)
Definition program (pairs : res (list (term * term))) : list instr :=
  match pairs with
  | Ok ps => map IAcc ps ++ [IErase; ICheck]
  | Throw e => [IFail (FThrow e)]
  | UB => [IFail FUB]
  end.

(** polynomial.hpp:1248-1582: the tables, the remaining work of the workers, the exception caught (if any) and the work done so far. *)
Record cstate : Type := CState {
  cs_tables : list (table K C);
  cs_workers : list (list (nat * instr));
  cs_err : option failure;
  cs_done : list (nat * instr)
}.

Definition set_nth {A : Type} (l : list A) (i : nat) (a : A) : list A := firstn i l ++ a :: skipn (S i) l.

(** tbb::parallel_for, polynomial.hpp:1555-1581.  One step: the first pending instruction of some worker is executed on its table; if it fails the worker stops, and its failure is kept or ignored in favour of an earlier one;
    after a failure workers can be cancelled. *)
Inductive cstep (ss : symbol_set) (log2 : nat) : cstate -> cstate -> Prop :=
  | step_ok ts ws1 s i w ws2 err d tab tab' :
      nth_error ts s = Some tab -> exec ss log2 i tab = Ok tab' ->
      cstep ss log2 (CState ts (ws1 ++ ((s, i) :: w) :: ws2) err d) (CState (set_nth ts s tab') (ws1 ++ w :: ws2) err (d ++ [(s, i)]))
  | step_fail ts ws1 s i w ws2 err err' d f :
      (nth_error ts s = None /\ f = FUB \/ exists tab, nth_error ts s = Some tab /\ exec ss log2 i tab = failed f) ->
      (err' = Some f \/ (err <> None /\ err' = err)) ->
      cstep ss log2 (CState ts (ws1 ++ ((s, i) :: w) :: ws2) err d) (CState ts (ws1 ++ [] :: ws2) err' d)
  | step_cancel ts ws1 w ws2 f d :
      cstep ss log2 (CState ts (ws1 ++ w :: ws2) (Some f) d) (CState ts (ws1 ++ [] :: ws2) (Some f) d).

Inductive csteps (ss : symbol_set) (log2 : nat) : cstate -> cstate -> Prop :=
  | steps_refl s : csteps ss log2 s s
  | steps_more s1 s2 s3 : csteps ss log2 s1 s2 -> cstep ss log2 s2 s3 -> csteps ss log2 s1 s3.

(** tbb::blocked_range, polynomial.hpp:1555-1581.  The initial state: a split of the segments into blocks. *)
Definition block_work (tasks : nat -> res (list (term * term))) (b : list nat) : list (nat * instr) :=
  List.concat (map (fun s => map (pair s) (program (tasks s))) b).
Definition cinit (tables : list (table K C)) (tasks : nat -> res (list (term * term))) (blocks : list (list nat)) : cstate :=
  CState tables (map (block_work tasks) blocks) None [].
(** polynomial.hpp:1555-1581.  All the workers are done; the outcome of the call. *)
Definition finished (st : cstate) : Prop := Forall (fun w => w = []) (cs_workers st).
Definition outcome (rv : series) (st : cstate) : res series :=
  match cs_err st with None => Ok (set_tables rv (cs_tables st)) | Some f => failed f end.

(** polynomial.hpp:797-1245: the part of [poly_mul_impl_mt_hm] before the parallel loop: None if there is nothing to multiply, otherwise the
    prepared return value, log2 of the number of segments and the pairs of terms of every segment. *)
Definition mt_prelude (t : option (trunc K)) (retval x y : series) : res (option (series * nat * (nat -> res (list (term * term))))) :=
  let ss := s_ss retval in
  let v1 := terms x in
  let v2 := terms y in
  _ <- check_overflow E ss v1 v2 ;;
  nothing <- match t with None => Ok false | Some t => no_mults E t ss v1 v2 end ;;
  if (nothing : bool) then Ok None
  else
    let log2 := Nat.min (me_log2 E v1 v2) max_log2_size in
    retval <- set_n_segments retval log2 ;;
    let nsegs := (2 ^ log2)%nat in
    let v1 := me_sort E (fun e => Z.of_nat (seg_of KO log2 e)) v1 in
    let v2 := me_sort E (fun e => Z.of_nat (seg_of KO log2 e)) v2 in
    vseg1 <- compute_vseg KO log2 v1 ;;
    vseg2 <- compute_vseg KO log2 v2 ;;
    '(v1, vd1) <- match t with None => Ok (v1, []) | Some t => seg_sorted E t ss v1 vseg1 end ;;
    '(v2, vd2) <- match t with None => Ok (v2, []) | Some t => seg_sorted E t ss v2 vseg2 end ;;
    Ok (Some (retval, log2, task_pairs t v1 v2 vd1 vd2 vseg1 vseg2 nsegs)).

(** polynomial.hpp:797-1582.  The possible results of the multi-threaded multiplication, over all splits into blocks and all interleavings. *)
Definition mt_outcome (t : option (trunc K)) (retval x y : series) (out : res series) : Prop :=
  match mt_prelude t retval x y with
  | Ok None => out = Ok retval
  | Ok (Some (rv, log2, tasks)) =>
      exists blocks st, Permutation (List.concat blocks) (seq 0 (2 ^ log2)) /\
        csteps (s_ss retval) log2 (cinit (s_tables rv) tasks blocks) st /\ finished st /\ out = outcome rv st
  | Throw e => out = Throw e
  | UB => out = UB
  end.
End Conc.
