(** Programs with variables that hold power series, in which every call may be interrupted by an exception, which is caught by the program; the variables are used
    afterwards: see ExnModel4.v (programs with polynomials) and ExnModel2.v (the operations of power series that can be interrupted). *)
From Coq Require Import ZArith List Bool String Arith.
From Verif Require Import Base IntModel SymModel KeyOps SeriesModel SeriesModel2 PolyModel PolyModel2 PSModel ExnModel ExnModel2 ExnModel3 ExnModel4.
Import ListNotations.
Open Scope Z_scope.

Section X.
Context {K C : Type} (KO : key_ops K) (CO : cf_ops C) (PO : tbl_policy (K * C)) (tD : ity).
Notation series := (series K C trunc_t).
Notation TO := ps_tag_ops.

(** Calls which read their operand through a const reference and make the new object of themselves. *)
Inductive ps_unop : Type :=
| PShift (onleft sign : bool) (c : C)   (* x + c, x - c; c + x, c - x if onleft *)
| PTrim                                 (* trim(x) *)
| PWith (ss : symbol_set).              (* add_symbols(x, ss) *)
(** power_series.hpp:992-1006, series.hpp:4103-4183 (trim) and 4285-4305 (add_symbols): the models of these functions without interruptions. *)
Definition call_ps_unop (op : ps_unop) (x : series) : res series :=
  match op with
  | PShift onleft sign c => if onleft then scalar_addsub_ps KO CO PO tD sign c x else ps_addsub_scalar KO CO PO tD sign x c
  | PTrim => series_trim KO CO PO TO x
  | PWith ss => add_symbols KO CO PO TO x ss
  end.

(** A statement of the program, [try { ...; } catch (...) {}].  Variables are numbers; rx and ry say whether the operand is passed with std::move. *)
Inductive ps_cmd : Type :=
| PCopy (d x : nat)                                     (* d = x *)
| PMove (d x : nat)                                     (* d = std::move(x) *)
| PConst (d : nat) (c : C)                              (* d = p_series(c) *)
| PAddSub (sign : bool) (d x y : nat) (rx ry : bool)    (* d = x + y, d = x - y *)
| PInPlace (sign : bool) (x y : nat) (rx ry : bool)     (* x += y, x -= y *)
| PInShift (sign : bool) (x : nat) (c : C)              (* x += c, x -= c *)
| PTimes (d x : nat) (rx : bool) (c : C)                (* d = x * c *)
| PInTimes (x : nat) (c : C)                            (* x *= c *)
| PNeg (d x : nat) (rx : bool)                          (* d = -x *)
| PLimit (tV : ity) (x : nat) (n : Z)                   (* set_truncation(x, n), n of the type tV *)
| PLimitP (tV : ity) (x : nat) (n : Z) (s : symbol_set) (* set_truncation(x, n, s) *)
| PUnary (d x : nat) (op : ps_unop)
| PMul (E : mul_env K C trunc_t) (d x y : nat)          (* d = x * y *)
| PPow (m : @pow_cache K C trunc_t) (E : mul_env K C trunc_t) (cpow : C -> res C) (d x n : nat). (* d = pow(x, n) with the cache of powers m; cpow is the power of coefficients *)

(** The effect of a statement on the variables.  Simplification: the cache of powers with which pow is called is given in the statement (the cache is not a state of the run), and pow is
    interrupted as the calls that only read their operands are; for the cache after an interrupted pow see ExnModel3.v. *)
Definition ps_exec (c : ps_cmd) : M (nat -> series) unit := fun V o V' =>
  match c with
  | PCopy d x => exists s', x_copy_assign (V x) (V d) o s' /\ V' = setv V d s'
  | PMove d x => o = Some tt /\ V' = setv (setv V x (moved_from (V x))) d (V x)
  | PConst d c => exists h', x_call (series_of_cf KO CO PO TO c []) (load TO V d d) o h' /\ V' = give d o V (h' LR)
  | PAddSub sign d x y rx ry => exists h', x_ps_addsub KO CO PO tD sign (second x y) rx ry (load TO V x y) o h' /\ V' = give d o (unload V x y h') (h' LR)
  | PInPlace sign x y rx ry => exists h', x_ps_in_place_addsub KO CO PO tD sign (second x y) rx ry (load TO V x y) o h' /\ V' = unload V x y h'
  | PInShift sign x c => exists s', x_ps_in_place_scalar KO CO PO tD sign c (V x) o s' /\ V' = setv V x s'
  | PTimes d x rx c => exists h', x_scalar_mul KO CO TO rx c (load TO V x x) o h' /\ V' = give d o (unload V x x h') (h' LR)
  | PInTimes x c => exists h', x_in_place_scalar_mul KO CO TO false c (load TO V x x) o h' /\ V' = unload V x x h'
  | PNeg d x rx => exists h', x_minus KO CO rx (load TO V x x) o h' /\ V' = give d o (unload V x x h') (h' LR)
  | PLimit tV x n => exists s', x_set_truncation KO tD tV n (V x) o s' /\ V' = setv V x s'
  | PLimitP tV x n s => exists s', x_set_truncation_p KO tD tV n s (V x) o s' /\ V' = setv V x s'
  | PUnary d x op => exists h', x_call (call_ps_unop op (V x)) (load TO V x x) o h' /\ V' = give d o V (h' LR)
  | PMul E d x y => exists h', x_call (ps_mul KO CO PO E tD (V x) (V y)) (load TO V x y) o h' /\ V' = give d o V (h' LR)
  | PPow m E cpow d x n => exists h', x_call (fst (ps_pow KO CO PO E tD cpow (Some (Z.of_nat n)) (Nat.eqb n 0) (Some n) m (V x))) (load TO V x x) o h' /\ V' = give d o V (h' LR)
  end.
(** A run of the program up to some point: the statements executed, and for each whether it ended normally. *)
Inductive ps_history : (nat -> series) -> list (ps_cmd * bool) -> (nat -> series) -> Prop :=
| ph_start (V0 : nat -> series) : ps_history V0 [] V0
| ph_step (V0 : nat -> series) (t : list (ps_cmd * bool)) (V1 : nat -> series) (c : ps_cmd) (ok : bool) (V2 : nat -> series) :
    ps_history V0 t V1 -> ps_exec c V1 (if ok return option unit then Some tt else None) V2 -> ps_history V0 (t ++ [(c, ok)]) V2.
End X.
