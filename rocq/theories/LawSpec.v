(** Specification for C107: when one program may be replaced by another. *)
From Coq Require Import ZArith List Bool String Arith.
From Verif Require Import Base SymModel KeyOps SeriesModel SeriesSpec CalcSpec EvalSpec PolySpec SubsSpec ExprSpec.
Import ListNotations.
Open Scope Z_scope.

Section Spec.
Context {K C Tag : Type} (KS : key_sem K) (CO : cf_ops C) (cz : Z -> C) (pw : C -> Z -> C) (us : symbol_set).
Notation expr := (@expr K C Tag).

(** The two programs denote the same polynomial. *)
Definition denote_same (a b : expr) : Prop := forall ws, total CO (denotes KS CO cz pw us a) ws = total CO (denotes KS CO cz pw us b) ws.

(** One program comes from the other by replacing parts by parts that denote the same polynomial, any number of times, inside any operations. *)
Inductive interchangeable : expr -> expr -> Prop :=
| ic_law a b : denote_same a b -> interchangeable a b
| ic_trans a b c : interchangeable a b -> interchangeable b c -> interchangeable a c
| ic_sum sign a a' b b' : interchangeable a a' -> interchangeable b b' -> interchangeable (Sum sign a b) (Sum sign a' b')
| ic_assign sign a a' b b' : interchangeable a a' -> interchangeable b b' -> interchangeable (Assign sign a b) (Assign sign a' b')
| ic_minus a a' : interchangeable a a' -> interchangeable (Minus a) (Minus a')
| ic_scale a a' c : interchangeable a a' -> interchangeable (Scale a c) (Scale a' c)
| ic_shift onleft sign a a' c : interchangeable a a' -> interchangeable (Shift onleft sign a c) (Shift onleft sign a' c)
| ic_product a a' b b' : interchangeable a a' -> interchangeable b b' -> interchangeable (Product a b) (Product a' b')
| ic_power a a' n : interchangeable a a' -> interchangeable (Power a n) (Power a' n)
| ic_derivative a a' s : interchangeable a a' -> interchangeable (Derivative a s) (Derivative a' s)
| ic_trimmed a a' : interchangeable a a' -> interchangeable (Trimmed a) (Trimmed a')
| ic_with a a' ss ss' : interchangeable a a' -> interchangeable (With a ss) (With a' ss')
| ic_low a a' lim : interchangeable a a' -> interchangeable (Low a lim) (Low a' lim)
| ic_low_in a a' lim syms : interchangeable a a' -> interchangeable (LowIn a lim syms) (LowIn a' lim syms)
| ic_substitute a a' sm : interchangeable a a' -> interchangeable (Substitute a sm) (Substitute a' sm).

(** The exponents of the polynomial denoted are in Ex; all its degrees are non-negative. *)
Definition exponents (Ex : Z -> Prop) (a : expr) : Prop := forall t, In t (denotes KS CO cz pw us a) -> Forall Ex (fst t).
Definition nonnegative (sel : string -> bool) (a : expr) : Prop := forall t, In t (denotes KS CO cz pw us a) -> 0 <= degree_of sel us (fst t).
(** No name of sm is in ss. *)
Definition replaces_none (sm : symbol_map C) (ss : symbol_set) : Prop := forall z, In z ss -> assoc sm z = None.
(** sm replaces what sm1 replaces, by the same values, and what sm2 replaces besides. *)
Definition first_then (sm1 sm2 sm : symbol_map C) : Prop := forall z, assoc sm z = match assoc sm1 z with Some v => Some v | None => assoc sm2 z end.
End Spec.
