(** Specification for C102: what is known of the variables of a program whose calls may be interrupted.  A variable holds a polynomial that is known, as a formal sum (ExprSpec.v); or a valid
    polynomial about which nothing else is known; or nothing that can be used: then it can only be assigned to. *)
From Coq Require Import ZArith List Bool String Arith.
From Verif Require Import Base IntModel SymModel SymSpec PMonSpec KeyOps SeriesModel SeriesModel2 SeriesSpec PolyModel PolySpec CalcSpec EvalSpec SubsSpec ExprSpec ExnModel4.
Import ListNotations.
Open Scope Z_scope.

Section Spec.
Context {K C Tag : Type} (KO : key_ops K) (KS : key_sem K) (CO : cf_ops C) (cz : Z -> C) (vpow : C -> Z -> res C) (pw : C -> Z -> C) (tV tD : ity).
Notation series := (series K C Tag).
Notation cmd := (@cmd K C Tag).

Inductive knowledge : Type := Known (F : @formal C) | Valid | Gone.
Definition usable (k : knowledge) : Prop := k <> Gone.
Definition known1 (f : @formal C -> formal) (a : knowledge) : knowledge := match a with Known F => Known (f F) | _ => Valid end.
Definition known2 (f : @formal C -> formal -> formal) (a b : knowledge) : knowledge := match a, b with Known F, Known G => Known (f F G) | _, _ => Valid end.

Definition denote_unop (us : symbol_set) (op : @unop C) (F : @formal C) : formal :=
  match op with
  | UDiff s => f_diff CO cz us s F
  | UTrim | UWith _ => F
  | ULow lim => f_low all_symbols us lim F
  | ULowIn lim syms => f_low (one_of syms) us lim F
  | USubs sm => f_subs CO pw us sm F
  | UShift onleft sign c => if onleft then f_sum CO sign (f_const us c) F else f_sum CO sign F (f_const us c)
  end.

(** What is known after a statement that ended normally ([ok]) or was interrupted, from what was known before. *)
Definition after (us : symbol_set) (c : cmd) (ok : bool) (k : nat -> knowledge) : nat -> knowledge :=
  let result d (v : knowledge) (k' : nat -> knowledge) := fun w => if ok && Nat.eqb w d then v else k' w in
  let moved x (rx : bool) (k' : nat -> knowledge) := fun w => if rx && Nat.eqb w x then Gone else k' w in
  match c with
  | Copy d x => fun w => if Nat.eqb w d then (if ok then k x else Gone) else k w
  | Move d x => result d (k x) (moved x true k)
  | Const d c => result d (Known (f_const us c)) k
  | AddSub sign d x y rx ry => result d (known2 (f_sum CO sign) (k x) (k y)) (moved x rx (moved y ry k))
  | InPlace sign x y rx ry => fun w => if Nat.eqb w x then (if ok then known2 (f_sum CO sign) (k x) (k y) else Valid) else if ry && Nat.eqb w y then Valid else k w
  | InShift sign x c => fun w => if Nat.eqb w x then (if ok then known1 (fun F => f_sum CO sign F (f_const us c)) (k x) else Valid) else k w
  | Times d x rx c => result d (known1 (fun F => f_mul CO F (f_const us c)) (k x)) (moved x rx k)
  | InTimes x c => result x (known1 (fun F => f_mul CO F (f_const us c)) (k x)) k
  | Neg d x rx => result d (known1 (f_neg CO) (k x)) (moved x rx k)
  | Unary d x op => result d (known1 (denote_unop us op) (k x)) k
  | Mul E d x y => result d (known2 (f_mul CO) (k x) (k y)) k
  | Pow E cpow d x n => result d (known1 (fun F => f_pow CO us F n) (k x)) k
  end.

(** The statement is one the program may execute: its operands can be used, its symbols are among us, the limits are exact, the power functions are what they should be. *)
Definition proper_unop (us : symbol_set) (op : @unop C) : Prop :=
  match op with
  | UDiff _ | UTrim | UShift _ _ _ => True
  | UWith ss => sorted_set ss /\ incl ss us
  | ULow lim => limit_ok tV tD lim
  | ULowIn lim syms => limit_ok tV tD lim /\ sorted_set syms
  | USubs sm => sorted_set (map fst sm) /\ pow0 (c_one CO) pw sm /\ forall s v z, In (s, v) sm -> vpow v z = Ok (pw v z)
  end.
Definition allowed (us : symbol_set) (c : cmd) (k : nat -> knowledge) : Prop :=
  match c with
  | Copy _ x | InShift _ x _ | Times _ x _ _ | InTimes x _ | Neg _ x _ => usable (k x)
  | Move d x => usable (k x) /\ d <> x
  | Const _ _ => True
  | AddSub _ _ x y _ _ | InPlace _ x y _ _ => usable (k x) /\ usable (k y)
  | Unary _ x op => usable (k x) /\ proper_unop us op
  | Mul E _ x y => usable (k x) /\ usable (k y) /\ env_ok KO KS E
  | Pow E cpow _ x n => usable (k x) /\ env_ok KO KS E /\ forall c, cpow c = Ok (cpower CO c n)
  end.

(** What is known at the end of a run; the run is proper if every statement was allowed when it was executed. *)
Fixpoint known_after (us : symbol_set) (t : list (cmd * bool)) (k : nat -> knowledge) : nat -> knowledge :=
  match t with [] => k | (c, ok) :: t' => known_after us t' (after us c ok k) end.
Fixpoint proper_run (us : symbol_set) (t : list (cmd * bool)) (k : nat -> knowledge) : Prop :=
  match t with [] => True | (c, ok) :: t' => allowed us c k /\ proper_run us t' (after us c ok k) end.

(** The variables that a statement may change: what it assigns to if it ends normally, what it works on in place, what is passed with std::move. *)
Definition may_change (c : cmd) (ok : bool) : list nat :=
  let result d := if ok then [d] else [] in
  let moved x (rx : bool) := if rx then [x] else [] in
  match c with
  | Copy d _ => [d]
  | Move d x => [x; d]
  | Const d _ => result d
  | AddSub _ d x y rx ry => result d ++ moved x rx ++ moved y ry
  | InPlace _ x y _ ry => x :: moved y ry
  | InShift _ x _ => [x]
  | Times d x rx _ | Neg d x rx => result d ++ moved x rx
  | InTimes x _ => result x
  | Unary d _ _ | Mul _ d _ _ | Pow _ _ d _ _ => result d
  end.

(** The object has the value that is known. *)
Definition holds (us : symbol_set) (k : knowledge) (x : series) : Prop :=
  match k with
  | Known F => wf KO KS CO x /\ incl (s_ss x) us /\ forall ws, coef KS CO us x ws = total CO F ws
  | Valid => wf KO KS CO x /\ incl (s_ss x) us
  | Gone => True
  end.
End Spec.
