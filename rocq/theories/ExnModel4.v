(** Programs with variables that hold polynomials, in which every call may be interrupted by an exception, which is caught by the program; the variables are used
    afterwards.  The calls are those of ExnModel.v and ExnModel3.v ([M]: computations which end normally or with an exception); here the assignment of
    polynomials, unary minus and the calls that only read their operands are added. *)
From Coq Require Import ZArith List Bool String Arith.
From Verif Require Import Base IntModel SymModel KeyOps SeriesModel SeriesModel2 PolyModel PolyModel2 ExnModel ExnModel3.
Import ListNotations.
Open Scope Z_scope.

Section X.
Context {K C Tag : Type} (KO : key_ops K) (CO : cf_ops C) (PO : tbl_policy (K * C)) (TO : tag_ops Tag).
Context (cz : Z -> C) (vpow : C -> Z -> res C) (tV tD : ity).
Notation series := (series K C Tag).
Notation store := (@store K C Tag).
Notation cache := (@pow_cache K C Tag).

(** A function which reads its operands through const references and works on objects of its own (polynomial.hpp:1880-2010: products; 2364-2445: truncation;
    2249-2306: substitution; 2534-2642: derivative; series.hpp: trim and add_symbols): it may be interrupted at any time; then its objects are destroyed. *)
Definition x_call (r : res series) : M store unit := mcall ;;; s <<- mres r ;; mcall ;;; wr_loc LR s.
(** series.hpp:1866-1881: operator-: a mutable rvalue is negated in place and moved to the return value. *)
Definition x_minus (rx : bool) : M store unit :=
  if rx then on LX (x_negate KO CO) ;;; mv_loc LR LX else cp_loc LR LX ;;; on LR (x_negate KO CO).
(** series.hpp:815: the defaulted copy assignment: the members are assigned in the order of their declaration (series.hpp:1516-1519): tables, log2 of their
    number, tag, symbol set (a flyweight, which does not throw).  If there is no room for the tables of [from], a new vector is made first, so that an exception leaves everything as before;
    otherwise the tables are assigned one by one (std::vector), and the table whose assignment throws is as before, or has lost its elements, or has some
    of those of the source (boost::unordered_flat_map, basic guarantee); tables beyond the present ones are constructed, and do not stay if this throws. *)
Definition x_copy_assign (from : series) : M series unit := fun s o s' =>
  (o = Some tt /\ s' = from) \/
  (o = None /\
   (s' = s \/
    (exists i t0 t, nth_error (s_tables from) i = Some t0 /\ (i < List.length (s_tables s))%nat /\ (incl t t0 \/ nth_error (s_tables s) i = Some t) /\
                    s' = set_tables s (firstn i (s_tables from) ++ t :: skipn (S i) (s_tables s))) \/
    ((List.length (s_tables s) < List.length (s_tables from))%nat /\ s' = set_tables s (firstn (List.length (s_tables s)) (s_tables from))) \/
    s' = Series (s_tables from) (s_log2 from) (s_tag s) (s_ss s))).

(** * Programs *)
(** The calls that read one polynomial. *)
Inductive unop : Type :=
| UDiff (s : string)                       (* diff(x, s) *)
| UTrim                                    (* trim(x) *)
| UWith (ss : symbol_set)                  (* add_symbols(x, ss) *)
| ULow (lim : Z)                           (* truncate_degree(x, lim) on a copy *)
| ULowIn (lim : Z) (syms : symbol_set)     (* truncate_p_degree(x, lim, syms) on a copy *)
| USubs (sm : symbol_map C)                (* subs(x, sm) *)
| UShift (onleft sign : bool) (c : C).     (* x + c, x - c; c + x, c - x if onleft *)
(** polynomial.hpp:2534-2642, 2364-2445, 2249-2306, series.hpp:2346-2373, and trim and add_symbols: the models of these functions without interruptions. *)
Definition call_unop (op : unop) (x : series) : res series :=
  match op with
  | UDiff s => poly_diff KO CO PO TO cz x s
  | UTrim => series_trim KO CO PO TO x
  | UWith ss => add_symbols KO CO PO TO x ss
  | ULow lim => truncate_degree KO tV tD lim x
  | ULowIn lim syms => truncate_p_degree KO tV tD lim syms x
  | USubs sm => subs_scalar KO CO PO TO vpow x sm
  | UShift onleft sign c => if onleft then scalar_addsub_series KO CO PO sign c x else series_addsub_scalar KO CO PO sign x c
  end.

(** A statement of the program, [try { ...; } catch (...) {}].  Variables are numbers; rx and ry say whether the operand is passed with std::move. *)
Inductive cmd : Type :=
| Copy (d x : nat)                                     (* d = x *)
| Move (d x : nat)                                     (* d = std::move(x) *)
| Const (d : nat) (c : C)                              (* d = polynomial(c) *)
| AddSub (sign : bool) (d x y : nat) (rx ry : bool)    (* d = x + y, d = x - y *)
| InPlace (sign : bool) (x y : nat) (rx ry : bool)     (* x += y, x -= y *)
| InShift (sign : bool) (x : nat) (c : C)              (* x += c, x -= c *)
| Times (d x : nat) (rx : bool) (c : C)                (* d = x * c *)
| InTimes (x : nat) (c : C)                            (* x *= c *)
| Neg (d x : nat) (rx : bool)                          (* d = -x *)
| Unary (d x : nat) (op : unop)
| Mul (E : mul_env K C Tag) (d x y : nat)              (* d = x * y *)
| Pow (E : mul_env K C Tag) (cpow : C -> res C) (d x n : nat). (* d = pow(x, n); cpow is the power of coefficients *)

(** The values of the variables, and the cache of powers. *)
Definition machine : Type := (nat -> series) * cache.
Definition setv (V : nat -> series) (v : nat) (s : series) : nat -> series := fun w => if Nat.eqb w v then s else V w.
(** The operands of a call: LX is x, LY is y (if they are the same object only LX is used). *)
Definition load (V : nat -> series) (x y : nat) : store := fun l => match l with LX => V x | LY => V y | LA | LB | LR => series_default TO end.
Definition second (x y : nat) : loc := if Nat.eqb x y then LX else LY.
Definition unload (V : nat -> series) (x y : nat) (h : store) : nat -> series := if Nat.eqb x y then setv V x (h LX) else setv (setv V x (h LX)) y (h LY).
(** The return value is moved to the variable (series.hpp:816-831, noexcept). *)
Definition give (d : nat) (o : option unit) (V : nat -> series) (r : series) : nat -> series := match o with Some _ => setv V d r | None => V end.

Definition exec (c : cmd) : M machine unit := fun M1 o M2 => let (V, m) := M1 in let (V', m') := M2 in
  match c with
  | Copy d x => m' = m /\ exists s', x_copy_assign (V x) (V d) o s' /\ V' = setv V d s'
  | Move d x => m' = m /\ o = Some tt /\ V' = setv (setv V x (moved_from (V x))) d (V x)
  | Const d c => m' = m /\ exists h', x_call (series_of_cf KO CO PO TO c []) (load V d d) o h' /\ V' = give d o V (h' LR)
  | AddSub sign d x y rx ry => m' = m /\ exists h', x_addsub KO CO PO TO sign (second x y) rx ry (load V x y) o h' /\ V' = give d o (unload V x y h') (h' LR)
  | InPlace sign x y rx ry => m' = m /\ exists h', x_in_place_addsub KO CO PO TO sign (second x y) rx ry (load V x y) o h' /\ V' = unload V x y h'
  | InShift sign x c => m' = m /\ exists s', x_in_place_scalar KO CO PO sign c (V x) o s' /\ V' = setv V x s'
  | Times d x rx c => m' = m /\ exists h', x_scalar_mul KO CO TO rx c (load V x x) o h' /\ V' = give d o (unload V x x h') (h' LR)
  | InTimes x c => m' = m /\ exists h', x_in_place_scalar_mul KO CO TO false c (load V x x) o h' /\ V' = unload V x x h'
  | Neg d x rx => m' = m /\ exists h', x_minus rx (load V x x) o h' /\ V' = give d o (unload V x x h') (h' LR)
  | Unary d x op => m' = m /\ exists h', x_call (call_unop op (V x)) (load V x x) o h' /\ V' = give d o V (h' LR)
  | Mul E d x y => m' = m /\ exists h', x_call (poly_mul KO CO PO TO E (V x) (V y)) (load V x y) o h' /\ V' = give d o V (h' LR)
  | Pow E cpow d x n => exists p, poly_pow_x KO CO PO TO E cpow (Some (Z.of_nat n)) (Nat.eqb n 0) (Some n) (V x) m p m' /\
                                  match p with Some r => o = Some tt /\ V' = setv V d r | None => o = None /\ V' = V end
  end.
(** A run of the program up to some point: the statements executed, and for each whether it ended normally. *)
Inductive history : machine -> list (cmd * bool) -> machine -> Prop :=
| h_start (M0 : machine) : history M0 [] M0
| h_step (M0 : machine) (t : list (cmd * bool)) (M1 : machine) (c : cmd) (ok : bool) (M2 : machine) : history M0 t M1 -> exec c M1 (if ok return option unit then Some tt else None) M2 -> history M0 (t ++ [(c, ok)]) M2.
End X.
