(** Specification of printed text: a reader of sums of products, written independently of the printer.
    It knows nothing of monomials or series: it splits a text into words and reads them as arithmetic. *)
From Coq Require Import ZArith List Bool String Ascii DecimalString.
From Verif Require Import SymModel.
Import ListNotations.
Open Scope Z_scope.

(** * Words *)
Inductive token : Type := TNum (n : Z) | TName (s : string) | TPlus | TMinus | TStar | TPow.

Definition code (c : ascii) : Z := Z.of_nat (nat_of_ascii c).
Definition is_digit (c : ascii) : bool := (48 <=? code c) && (code c <=? 57).
Definition is_letter (c : ascii) : bool :=
  ((65 <=? code c) && (code c <=? 90)) || ((97 <=? code c) && (code c <=? 122)) || (code c =? 95).

Definition cons_tok (t : token) (r : option (list token)) : option (list token) :=
  match r with Some l => Some (t :: l) | None => None end.
(** The word being read, if any, is complete. *)
Definition flush (cur : option token) (r : option (list token)) : option (list token) :=
  match cur with Some t => cons_tok t r | None => r end.
(** Splitting into words: digits form numbers, a letter followed by letters and digits forms a name, the rest are signs. *)
Fixpoint lex (cur : option token) (s : string) : option (list token) :=
  match s with
  | EmptyString => flush cur (Some [])
  | String c s' =>
      if is_digit c then
        match cur with
        | None => lex (Some (TNum (code c - 48))) s'
        | Some (TNum n) => lex (Some (TNum (10 * n + (code c - 48)))) s'
        | Some (TName x) => lex (Some (TName (x ++ String c "")%string)) s'
        | Some _ => None
        end
      else if is_letter c then
        match cur with
        | None => lex (Some (TName (String c ""))) s'
        | Some (TName x) => lex (Some (TName (x ++ String c "")%string)) s'
        | Some _ => None
        end
      else if Ascii.eqb c "+" then flush cur (cons_tok TPlus (lex None s'))
      else if Ascii.eqb c "-" then flush cur (cons_tok TMinus (lex None s'))
      else if Ascii.eqb c "*" then
        match s' with
        | String d s'' => if Ascii.eqb d "*" then flush cur (cons_tok TPow (lex None s'')) else flush cur (cons_tok TStar (lex None s'))
        | EmptyString => None
        end
      else None
  end.

(** * Terms *)
(** A term read from the text: its number and its powers of names, in the order in which they are written. *)
Definition rterm : Type := (Z * list (string * Z))%type.
Definition rmul (a b : rterm) : rterm := (fst a * fst b, snd a ++ snd b).
Definition rneg (a : rterm) : rterm := (- fst a, snd a).
(** A factor f followed by the rest of the text. *)
Definition after (read : list token -> option (rterm * list rterm)) (f : rterm) (r : list token) : option (rterm * list rterm) :=
  match r with
  | [] => Some (f, [])
  | TStar :: r' => match read r' with Some (t, l) => Some (rmul f t, l) | None => None end
  | TPlus :: r' => match read r' with Some (t, l) => Some (f, t :: l) | None => None end
  | TMinus :: r' => match read r' with Some (t, l) => Some (f, rneg t :: l) | None => None end
  | _ => None
  end.
(** The first term of a sum, without its sign, and the other terms. *)
Fixpoint read_terms (ts : list token) : option (rterm * list rterm) :=
  match ts with
  | TNum n :: r => after read_terms (n, []) r
  | TName x :: TPow :: TMinus :: TNum n :: r => after read_terms (1, [(x, - n)]) r
  | TName x :: TPow :: TNum n :: r => after read_terms (1, [(x, n)]) r
  | TName x :: r => after read_terms (1, [(x, 1)]) r
  | _ => None
  end.
Definition read_sum (ts : list token) : option (list rterm) :=
  match ts with
  | TMinus :: r => match read_terms r with Some (t, l) => Some (rneg t :: l) | None => None end
  | _ => match read_terms ts with Some (t, l) => Some (t :: l) | None => None end
  end.
(** The sum that a text denotes. *)
Definition read_text (s : string) : option (list rterm) :=
  match lex None s with Some ts => read_sum ts | None => None end.

(** An identifier: a letter or underscore followed by letters, digits and underscores. *)
Fixpoint all_alnum (s : string) : Prop :=
  match s with
  | EmptyString => True
  | String c s' => (is_digit c || is_letter c) = true /\ all_alnum s'
  end.
Definition identifier (s : string) : Prop :=
  match s with
  | EmptyString => False
  | String c s' => is_letter c = true /\ all_alnum s'
  end.

(** * What should be read *)
(** The symbols with their exponents, those with exponent zero left out. *)
Fixpoint powers (ss : symbol_set) (vs : list Z) : list (string * Z) :=
  match ss, vs with
  | x :: ss', v :: vs' => if v =? 0 then powers ss' vs' else (x, v) :: powers ss' vs'
  | _, _ => []
  end.

(** * Texts of terms *)
(** A text in which no "+" is followed by "-" and whose last character is not "+". *)
Fixpoint clean (s : string) : Prop :=
  match s with
  | EmptyString => True
  | String c s' => (c = "+"%char -> match s' with EmptyString => False | String d _ => d <> "-"%char end) /\ clean s'
  end.
(** A sum of texts: a text which begins with a minus sign follows directly, the others follow a plus sign. *)
Definition begins_minus (t : string) : bool := match t with String d _ => Ascii.eqb d "-" | EmptyString => false end.
Fixpoint more_terms (l : list string) : string :=
  match l with
  | [] => ""
  | t :: l' => if begins_minus t then (t ++ more_terms l')%string else ("+" ++ t ++ more_terms l')%string
  end.
Definition sum_text (l : list string) : string :=
  match l with [] => "" | t :: l' => (t ++ more_terms l')%string end.
(** The text of coefficient times key, where a coefficient 1 or -1 and a key 1 are left out. *)
Definition product_text (times c k : string) : string :=
  if (k =? "1")%string then c
  else if (c =? "1")%string then k
  else if (c =? "-1")%string then ("-" ++ k)%string
  else (c ++ times ++ k)%string.
(** The text in parentheses, if the text is of this form; else the text. *)
Definition in_parens (s t : string) : Prop := s = ("(" ++ t ++ ")")%string /\ t <> ""%string.

(** * Texts of monomials *)
(** The decimal text of an integer, from the standard library. *)
Definition decimal (n : Z) : string := DecimalString.NilZero.string_of_int (Z.to_int n).
(** Powers in plain text: x*y**2*z**-3; 1 if there are none. *)
Definition power_text (p : string * Z) : string := if snd p =? 1 then fst p else (fst p ++ "**" ++ decimal (snd p))%string.
Definition monomial_text (l : list (string * Z)) : string :=
  match l with [] => "1" | _ => String.concat "*" (map power_text l) end.
(** Powers in TeX: {x}{y}^{2}; negative powers go to the denominator of a fraction. *)
Definition power_tex (p : string * Z) : string :=
  ("{" ++ fst p ++ "}" ++ (if (Z.abs (snd p) =? 1)%Z then "" else "^{" ++ decimal (Z.abs (snd p)) ++ "}"))%string.
Definition powers_tex (l : list (string * Z)) : string := String.concat "" (map power_tex l).
Definition monomial_tex (l : list (string * Z)) : string :=
  let num := filter (fun p => 0 <? snd p) l in
  let den := filter (fun p => snd p <? 0) l in
  match num, den with
  | [], [] => "1"
  | _, [] => powers_tex num
  | [], _ => ("\frac{1}{" ++ powers_tex den ++ "}")%string
  | _, _ => ("\frac{" ++ powers_tex num ++ "}{" ++ powers_tex den ++ "}")%string
  end.

Example read_text_ex : read_text "-3*x**2*y1+z-2*x**-1+7" =
  Some [(-3, [("x", 2); ("y1", 1)]); (1, [("z", 1)]); (-2, [("x", -1)]); (7, [])]%string.
Proof. reflexivity. Qed.
Example read_text_ex2 : read_text "x+*y" = None /\ read_text "x y" = None /\ read_text "2x" = None /\ read_text "" = None /\ read_text "x**y" = None.
Proof. repeat split. Qed.
