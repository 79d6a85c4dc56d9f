(** Specification for C100: expressions built from polynomials by the operations of the library, and the polynomial that an expression denotes, as a formal sum of terms (exponents over
    a fixed set of symbols [us], coefficient) computed without reference to the library.  Formal sums are compared by the total coefficient of each monomial ([total]). *)
From Coq Require Import ZArith List Bool String.
From Verif Require Import Base SymModel SymSpec PMonSpec KeyOps SeriesModel SeriesSpec PolySpec CalcSpec EvalSpec SubsSpec.
Import ListNotations.
Open Scope Z_scope.

Section Spec.
Context {K C Tag : Type} (KO : key_ops K) (KS : key_sem K) (CO : cf_ops C) (cz : Z -> C) (pw : C -> Z -> C).
Notation series := (series K C Tag).

Inductive expr : Type :=
| Given (x : series)                                    (* an object *)
| Number (c : C)                                        (* an object constructed from a coefficient *)
| Sum (sign : bool) (a b : expr)                        (* a + b or a - b *)
| Assign (sign : bool) (a b : expr)                     (* a += b or a -= b *)
| Minus (a : expr)                                      (* -a *)
| Scale (a : expr) (c : C)                              (* a * c *)
| Shift (onleft sign : bool) (a : expr) (c : C)           (* a + c, a - c; c + a, c - a if onleft *)
| Product (a b : expr)                                  (* a * b *)
| Power (a : expr) (n : nat)                            (* pow(a, n) *)
| Derivative (a : expr) (s : string)                    (* diff(a, s) *)
| Trimmed (a : expr)                                    (* trim(a) *)
| With (a : expr) (ss : symbol_set)                     (* add_symbols(a, ss) *)
| Low (a : expr) (lim : Z)                              (* truncate_degree(a, lim) *)
| LowIn (a : expr) (lim : Z) (syms : symbol_set)        (* truncate_p_degree(a, lim, syms) *)
| Substitute (a : expr) (sm : symbol_map C).            (* subs(a, sm) *)

Definition formal := list (list Z * C).
(** The terms of a polynomial, over us. *)
Definition as_formal (us : symbol_set) (x : series) : formal := map (fun e => (spread (s_ss x) us (ks_exps KS (List.length (s_ss x)) (fst e)), snd e)) (terms x).
Definition f_const (us : symbol_set) (c : C) : formal := [(repeat 0 (List.length us), c)].
Definition f_neg (F : formal) : formal := map (fun t => (fst t, c_neg CO (snd t))) F.
Definition f_sum (sign : bool) (F G : formal) : formal := F ++ (if sign then G else f_neg G).
(** All the products of a term of F and one of G: exponents add, coefficients multiply. *)
Definition f_mul (F G : formal) : formal := map (fun p => (vadd (fst (fst p)) (fst (snd p)), c_mul CO (snd (fst p)) (snd (snd p)))) (list_prod F G).
Fixpoint f_pow (us : symbol_set) (F : formal) (n : nat) : formal := match n with O => f_const us (c_one CO) | S n' => f_mul (f_pow us F n') F end.
(** c m s^e |-> c e m s^(e-1). *)
Definition f_diff (us : symbol_set) (s : string) (F : formal) : formal := map (fun t => (bump us s (-1) (fst t), c_mul CO (snd t) (cz (expo us (fst t) s)))) F.
Definition f_low (sel : string -> bool) (us : symbol_set) (lim : Z) (F : formal) : formal := filter (fun t => degree_of sel us (fst t) <=? lim) F.
(** The names of sm are replaced by their values. *)
Definition f_subs (us : symbol_set) (sm : symbol_map C) (F : formal) : formal := map (fun t => (keep sm us (fst t), c_mul CO (mono (c_one CO) (c_mul CO) pw sm us (fst t) us) (snd t))) F.

Fixpoint denotes (us : symbol_set) (e : expr) : formal :=
  match e with
  | Given x => as_formal us x
  | Number c => f_const us c
  | Sum sign a b | Assign sign a b => f_sum sign (denotes us a) (denotes us b)
  | Minus a => f_neg (denotes us a)
  | Scale a c => f_mul (denotes us a) (f_const us c)
  | Shift onleft sign a c => if onleft then f_sum sign (f_const us c) (denotes us a) else f_sum sign (denotes us a) (f_const us c)
  | Product a b => f_mul (denotes us a) (denotes us b)
  | Power a n => f_pow us (denotes us a) n
  | Derivative a s => f_diff us s (denotes us a)
  | Trimmed a | With a _ => denotes us a
  | Low a lim => f_low all_symbols us lim (denotes us a)
  | LowIn a lim syms => f_low (one_of syms) us lim (denotes us a)
  | Substitute a sm => f_subs us sm (denotes us a)
  end.

(** The coefficient of the monomial with exponents ws in a formal sum. *)
Definition total (F : formal) (ws : list Z) : C := csum CO (map snd (filter (fun t => vec_eqb (fst t) ws) F)).

(** The objects of the expression are valid polynomials, its symbols are among us, and the names given to its operations are sorted sets. *)
Fixpoint proper (us : symbol_set) (e : expr) : Prop :=
  match e with
  | Given x => wf KO KS CO x /\ incl (s_ss x) us
  | Number c => True
  | Sum _ a b | Assign _ a b | Product a b => proper us a /\ proper us b
  | Minus a | Scale a _ | Shift _ _ a _ | Power a _ | Derivative a _ | Trimmed a | Low a _ => proper us a
  | With a ss => proper us a /\ sorted_set ss /\ incl ss us
  | LowIn a _ syms => proper us a /\ sorted_set syms
  | Substitute a sm => proper us a /\ sorted_set (map fst sm) /\ pow0 (c_one CO) pw sm
  end.

(** For the value of an expression at a point: no derivative, truncation or substitution. *)
Fixpoint arithmetic (e : expr) : Prop :=
  match e with
  | Given _ | Number _ => True
  | Sum _ a b | Assign _ a b | Product a b => arithmetic a /\ arithmetic b
  | Minus a | Scale a _ | Shift _ _ a _ | Power a _ | Trimmed a | With a _ => arithmetic a
  | Derivative _ _ | Low _ _ | LowIn _ _ _ | Substitute _ _ => False
  end.
(** The value of an arithmetic expression: the objects are replaced by their values, the operations by those of V. *)
Context {V U : Type} (vzero vone : V) (va vm vs : V -> V -> V) (vo : V -> V) (pwv : U -> Z -> V) (h : C -> V).
Fixpoint vpower (v : V) (n : nat) : V := match n with O => vone | S n' => vm (vpower v n') v end.
Fixpoint compute (m : symbol_map U) (e : expr) : V :=
  match e with
  | Given x => value KS vzero vone va vm pwv h m x
  | Number c => h c
  | Sum sign a b | Assign sign a b => if sign then va (compute m a) (compute m b) else vs (compute m a) (compute m b)
  | Minus a => vo (compute m a)
  | Scale a c => vm (compute m a) (h c)
  | Shift onleft sign a c => let x := compute m a in if onleft then (if sign then va (h c) x else vs (h c) x) else (if sign then va x (h c) else vs x (h c))
  | Product a b => vm (compute m a) (compute m b)
  | Power a n => vpower (compute m a) n
  | Trimmed a | With a _ => compute m a
  | _ => vzero
  end.
Fixpoint objects_in (Ex : Z -> Prop) (e : expr) : Prop :=
  match e with
  | Given x => expos_in KS Ex x
  | Number _ => True
  | Sum _ a b | Assign _ a b | Product a b => objects_in Ex a /\ objects_in Ex b
  | Minus a | Scale a _ | Shift _ _ a _ | Power a _ | Derivative a _ | Trimmed a | With a _ | Low a _ | LowIn a _ _ | Substitute a _ => objects_in Ex a
  end.
End Spec.
