(** Specification for C106: what is known of the variables of a program with power series whose calls may be interrupted.  A variable holds the value of an expression (ExprSpec.v, P_PSExpr.v) up to a
    truncation; or a valid power series about which nothing else is known; or nothing that can be used: then it can only be assigned to.  [trunc] is the one truncation that the program uses. *)
From Coq Require Import ZArith List Bool String Arith.
From Verif Require Import Base IntModel SymModel SymSpec PMonSpec KeyOps SeriesModel SeriesModel2 SeriesSpec PolyModel PolySpec CalcSpec EvalSpec SubsSpec PSModel PSSpec P_PS P_PS2 ExprSpec P_PSExpr ExnModel4 PSHistModel.
Import ListNotations.
Open Scope Z_scope.

Section Spec.
Context {K C : Type} (KO : key_ops K) (KS : key_sem K) (CO : cf_ops C) (PO : tbl_policy (K * C)) (tD : ity) (cz : Z -> C) (pw : C -> Z -> C) (trunc : trunc_t).
Notation series := (series K C trunc_t).
Notation expr := (@expr K C trunc_t).
Notation ps_cmd := (@ps_cmd K C).

(** [Value e b]: the value of e; b: the truncation is known to be set. *)
Inductive ps_knowledge : Type := Value (e : expr) (b : bool) | SomeSeries | Nothing.
Definition known (k : ps_knowledge) : Prop := match k with Value _ _ => True | _ => False end.
Definition from1 (f : expr -> expr) (a : ps_knowledge) : ps_knowledge := match a with Value e b => Value (f e) b | _ => SomeSeries end.
Definition from2 (f : expr -> expr -> expr) (a a' : ps_knowledge) : ps_knowledge := match a, a' with Value e b, Value e' b' => Value (f e e') (b || b') | _, _ => SomeSeries end.
Definition truncated (a : ps_knowledge) : ps_knowledge := match a with Value e _ => Value e true | _ => SomeSeries end.
Definition expr_of (op : @ps_unop C) (e : expr) : expr := match op with PShift onleft sign c => Shift onleft sign e c | PTrim => Trimmed e | PWith ss => With e ss end.

(** What is known after a statement that ended normally ([ok]) or was interrupted, from what was known before. *)
Definition ps_after (c : ps_cmd) (ok : bool) (k : nat -> ps_knowledge) : nat -> ps_knowledge :=
  let result d (v : ps_knowledge) (k' : nat -> ps_knowledge) := fun w => if ok && Nat.eqb w d then v else k' w in
  let moved x (rx : bool) (k' : nat -> ps_knowledge) := fun w => if rx && Nat.eqb w x then Nothing else k' w in
  let in_place x (v : ps_knowledge) := fun w => if Nat.eqb w x then (if ok then v else SomeSeries) else k w in
  match c with
  | PCopy d x => fun w => if Nat.eqb w d then (if ok then k x else Nothing) else k w
  | PMove d x => result d (k x) (moved x true k)
  | PConst d c => result d (Value (Number c) false) k
  | PAddSub sign d x y rx ry => result d (from2 (Sum sign) (k x) (k y)) (moved x rx (moved y ry k))
  | PInPlace sign x y rx ry => fun w => if Nat.eqb w x then (if ok then from2 (Assign sign) (k x) (k y) else SomeSeries) else if ry && Nat.eqb w y then SomeSeries else k w
  | PInShift sign x c => in_place x (from1 (fun e => Shift false sign e c) (k x))
  | PTimes d x rx c => result d (from1 (fun e => Scale e c) (k x)) (moved x rx k)
  | PInTimes x c => result x (from1 (fun e => Scale e c) (k x)) k
  | PNeg d x rx => result d (from1 Minus (k x)) (moved x rx k)
  | PLimit _ x _ | PLimitP _ x _ _ => in_place x (truncated (k x))
  | PUnary d x op => result d (from1 (expr_of op) (k x)) k
  | PMul _ d x y => result d (from2 Product (k x) (k y)) k
  | PPow _ _ _ d x n => result d (from1 (fun e => Power e n) (k x)) k
  end.

(** The statement is one the program may execute: its operands have known values, its symbols are among us, the truncation it sets is the one of the program and is given as an exact number, the cache of
    powers is one left by earlier calls, the power of coefficients is what it should be. *)
Definition ps_allowed (us : symbol_set) (c : ps_cmd) (k : nat -> ps_knowledge) : Prop :=
  match c with
  | PCopy _ x => k x <> Nothing
  | PMove d x => k x <> Nothing /\ d <> x
  | PConst _ _ => True
  | PInShift _ x _ | PTimes _ x _ _ | PInTimes x _ | PNeg _ x _ => known (k x)
  | PAddSub _ _ x y _ _ | PInPlace _ x y _ _ => known (k x) /\ known (k y)
  | PLimit tV x n => known (k x) /\ trunc = total_truncation n /\ limit_value tV n
  | PLimitP tV x n s => known (k x) /\ trunc = partial_truncation n s /\ limit_value tV n /\ sorted_set s
  | PUnary _ x op => known (k x) /\ match op with PWith ss => sorted_set ss /\ incl ss us | _ => True end
  | PMul E _ x y => known (k x) /\ known (k y) /\ env_ok KO KS E
  | PPow m E cpow _ x n => known (k x) /\ ps_reachable KO KS CO PO tD m /\ env_ok KO KS E /\ forall c, cpow c = Ok (cpower CO c n)
  end.

(** What is known at the end of a run; the run is proper if every statement was allowed when it was executed. *)
Fixpoint ps_known_after (t : list (ps_cmd * bool)) (k : nat -> ps_knowledge) : nat -> ps_knowledge :=
  match t with [] => k | (c, ok) :: t' => ps_known_after t' (ps_after c ok k) end.
Fixpoint ps_proper_run (us : symbol_set) (t : list (ps_cmd * bool)) (k : nat -> ps_knowledge) : Prop :=
  match t with [] => True | (c, ok) :: t' => ps_allowed us c k /\ ps_proper_run us t' (ps_after c ok k) end.

(** At the start: what has a known value is an operand of the program, a valid power series over symbols among us, not truncated or with the truncation of the program, which its terms respect, and without
    terms of negative degree. *)
Definition starts (us : symbol_set) (k : ps_knowledge) (x : series) : Prop :=
  match k with
  | Value e b => e = Given x /\ (b = true -> s_tag x = trunc) /\ wf KO KS CO x /\ incl (s_ss x) us /\ (s_tag x = no_truncation \/ s_tag x = trunc) /\ respects KS x /\ no_negative KS trunc x
  | SomeSeries => wf KO KS CO x /\ incl (s_ss x) us
  | Nothing => True
  end.
(** The variable has the value that is known: within its truncation the coefficients are those of the polynomial denoted by the expression, computed exactly, and there are no others. *)
Definition has_value_of (us : symbol_set) (k : ps_knowledge) (x : series) : Prop :=
  match k with
  | Value e b => wf KO KS CO x /\ incl (s_ss x) us /\ (s_tag x = no_truncation \/ s_tag x = trunc) /\ (b = true -> s_tag x = trunc) /\ respects KS x /\
                 forall ws, coef KS CO us x ws = if within (s_tag x) us ws then total CO (denotes KS CO cz pw us e) ws else c_zero CO
  | SomeSeries => wf KO KS CO x /\ incl (s_ss x) us
  | Nothing => True
  end.

(** The variables that a statement may change: what it assigns to if it ends normally, what it works on in place, what is passed with std::move. *)
Definition ps_may_change (c : ps_cmd) (ok : bool) : list nat :=
  let result d := if ok then [d] else [] in
  let moved x (rx : bool) := if rx then [x] else [] in
  match c with
  | PCopy d _ => [d]
  | PMove d x => [x; d]
  | PConst d _ => result d
  | PAddSub _ d x y rx ry => result d ++ moved x rx ++ moved y ry
  | PInPlace _ x y _ ry => x :: moved y ry
  | PInShift _ x _ | PLimit _ x _ | PLimitP _ x _ _ => [x]
  | PTimes d x rx _ | PNeg d x rx => result d ++ moved x rx
  | PInTimes x _ => result x
  | PUnary d _ _ | PMul _ d _ _ | PPow _ _ _ d _ _ => result d
  end.
End Spec.
