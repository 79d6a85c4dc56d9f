(** Specification for C108: when one program on truncated power series may be replaced by another. *)
From Coq Require Import ZArith List Bool String Arith.
From Verif Require Import Base SymModel KeyOps SeriesModel SeriesSpec CalcSpec EvalSpec PolySpec PSModel PSSpec SubsSpec ExprSpec.
Import ListNotations.
Open Scope Z_scope.

Section Spec.
Context {K C : Type} (KS : key_sem K) (CO : cf_ops C) (cz : Z -> C) (pw : C -> Z -> C) (us : symbol_set) (t : trunc_t).
Notation expr := (@expr K C trunc_t).

(** The two programs denote polynomials with the same coefficients within the truncation t. *)
Definition agree_within (a b : expr) : Prop := forall ws, within t us ws = true -> total CO (denotes KS CO cz pw us a) ws = total CO (denotes KS CO cz pw us b) ws.

(** One program comes from the other by replacing parts by parts that agree with them within the truncation, any number of times, inside the operations; [ok]: what is required of programs. *)
Inductive alike (ok : expr -> Prop) : expr -> expr -> Prop :=
| al_within a b : agree_within a b -> alike ok a b
| al_trans a b c : ok b -> alike ok a b -> alike ok b c -> alike ok a c
| al_sum sign a a' b b' : alike ok a a' -> alike ok b b' -> alike ok (Sum sign a b) (Sum sign a' b')
| al_assign sign a a' b b' : alike ok a a' -> alike ok b b' -> alike ok (Assign sign a b) (Assign sign a' b')
| al_minus a a' : alike ok a a' -> alike ok (Minus a) (Minus a')
| al_scale a a' c : alike ok a a' -> alike ok (Scale a c) (Scale a' c)
| al_shift onleft sign a a' c : alike ok a a' -> alike ok (Shift onleft sign a c) (Shift onleft sign a' c)
| al_product a a' b b' : alike ok a a' -> alike ok b b' -> alike ok (Product a b) (Product a' b')
| al_power a a' n : alike ok a a' -> alike ok (Power a n) (Power a' n)
| al_trimmed a a' : alike ok a a' -> alike ok (Trimmed a) (Trimmed a')
| al_with a a' ss : alike ok a a' -> alike ok (With a ss) (With a' ss).

(** The limit of the truncation. *)
Definition has_limit (d : Z) : Prop := match t with no_truncation => False | total_truncation d' | partial_truncation d' _ => d' = d end.
(** No term of the polynomial has a degree, in the symbols counted by the truncation, less than m. *)
Definition order_at_least (m : Z) (a : expr) : Prop := forall e, In e (denotes KS CO cz pw us a) -> m <= degree_of (counted t) us (fst e).
(** The program c 0 + c 1 * a + c 2 * pow(a, 2) + ... + c n * pow(a, n). *)
Fixpoint taylor (c : nat -> C) (a : expr) (n : nat) : expr :=
  match n with O => Number (c O) | S n' => Sum true (taylor c a n') (Scale (Power a n) (c n)) end.
End Spec.
