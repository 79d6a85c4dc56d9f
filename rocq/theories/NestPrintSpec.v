(** Specification for C95: a reader of arithmetic expressions with parentheses, written independently of the printer.  Products of sums are multiplied out, so
    the value of a text is a list of terms. *)
From Coq Require Import ZArith List Bool String Ascii.
From Verif Require Import SymModel PrintSpec.
Import ListNotations.
Open Scope Z_scope.

(** Words: those of [PrintSpec] and parentheses. *)
Inductive ptoken : Type := W (t : token) | Open | Close.
Definition cons_p (t : ptoken) (r : option (list ptoken)) : option (list ptoken) := match r with Some l => Some (t :: l) | None => None end.
Definition flush_p (cur : option token) (r : option (list ptoken)) : option (list ptoken) := match cur with Some t => cons_p (W t) r | None => r end.
Fixpoint lex_p (cur : option token) (s : string) : option (list ptoken) :=
  match s with
  | EmptyString => flush_p cur (Some [])
  | String c s' =>
      if is_digit c then
        match cur with
        | None => lex_p (Some (TNum (code c - 48))) s'
        | Some (TNum n) => lex_p (Some (TNum (10 * n + (code c - 48)))) s'
        | Some (TName x) => lex_p (Some (TName (x ++ String c "")%string)) s'
        | Some _ => None
        end
      else if is_letter c then
        match cur with
        | None => lex_p (Some (TName (String c ""))) s'
        | Some (TName x) => lex_p (Some (TName (x ++ String c "")%string)) s'
        | Some _ => None
        end
      else if Ascii.eqb c "(" then flush_p cur (cons_p Open (lex_p None s'))
      else if Ascii.eqb c ")" then flush_p cur (cons_p Close (lex_p None s'))
      else if Ascii.eqb c "+" then flush_p cur (cons_p (W TPlus) (lex_p None s'))
      else if Ascii.eqb c "-" then flush_p cur (cons_p (W TMinus) (lex_p None s'))
      else if Ascii.eqb c "*" then
        match s' with
        | String d s'' => if Ascii.eqb d "*" then flush_p cur (cons_p (W TPow) (lex_p None s'')) else flush_p cur (cons_p (W TStar) (lex_p None s'))
        | EmptyString => None
        end
      else None
  end.

(** Sums are lists of terms; their product. *)
Definition sum_mul (a b : list rterm) : list rterm := flat_map (fun s => map (rmul s) b) a.
(** What comes next: the first word of a sum, a factor, or anything but a factor. *)
Inductive want := Start | Factor | Sign.
(** A sum being read: the terms of its finished products, the factors of the current product (with its sign), what comes next. *)
Record frame := Frame { f_done : list rterm; f_cur : list rterm; f_want : want }.
Definition one_s : list rterm := [(1, [])].
Definition minus_one_s : list rterm := [(-1, [])].
Definition start : frame := Frame [] one_s Start.
Definition put_factor (f : frame) (v : list rterm) : option frame := match f_want f with Sign => None | _ => Some (Frame (f_done f) (sum_mul (f_cur f) v) Sign) end.
(** The reader: [outer] are the sums around the open parentheses, the innermost first. *)
Fixpoint run (ts : list ptoken) (f : frame) (outer : list frame) : option (list rterm) :=
  match ts with
  | [] => match outer, f_want f with [], Sign => Some (f_done f ++ f_cur f) | _, _ => None end
  | W (TNum n) :: r => match put_factor f [(n, [])] with Some f' => run r f' outer | None => None end
  | W (TName x) :: W TPow :: W TMinus :: W (TNum n) :: r => match put_factor f [(1, [(x, - n)])] with Some f' => run r f' outer | None => None end
  | W (TName x) :: W TPow :: W (TNum n) :: r => match put_factor f [(1, [(x, n)])] with Some f' => run r f' outer | None => None end
  | W (TName x) :: r => match put_factor f [(1, [(x, 1)])] with Some f' => run r f' outer | None => None end
  | W TStar :: r => match f_want f with Sign => run r (Frame (f_done f) (f_cur f) Factor) outer | _ => None end
  | W TPlus :: r => match f_want f with Sign => run r (Frame (f_done f ++ f_cur f) one_s Factor) outer | _ => None end
  | W TMinus :: r => match f_want f with Sign => run r (Frame (f_done f ++ f_cur f) minus_one_s Factor) outer | Start => run r (Frame (f_done f) minus_one_s Factor) outer | Factor => None end
  | W TPow :: _ => None
  | Open :: r => match f_want f with Sign => None | _ => run r start (f :: outer) end
  | Close :: r => match outer, f_want f with
    | g :: outer', Sign => match put_factor g (f_done f ++ f_cur f) with Some g' => run r g' outer' | None => None end
    | _, _ => None end
  end.
Definition read_expression (s : string) : option (list rterm) := match lex_p None s with Some ts => run ts start [] | None => None end.

Example read_expression_ex : read_expression "-3*x**2*(y1+2)-(z-2*(x**-1+7))" =
  Some [(-3, [("x", 2); ("y1", 1)]); (-6, [("x", 2)]); (-1, [("z", 1)]); (2, [("x", -1)]); (14, [])]%string.
Proof. reflexivity. Qed.
Example read_expression_ex2 : read_expression "(x" = None /\ read_expression "x)" = None /\ read_expression "()" = None /\ read_expression "x*-y" = None /\ read_expression "(x)y" = None /\ read_expression "x(y)" = None /\ read_expression "x+" = None.
Proof. repeat split. Qed.
