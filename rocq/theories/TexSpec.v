(** Specification of printed texts, continued: readers of TeX and of plain text with fractions, written independently of the printer.
    They know nothing of monomials or series: a text is split into words, and these are read as a sum of products. *)
From Coq Require Import ZArith List Bool String Ascii Permutation.
From Verif Require Import SymModel PrintSpec.
Import ListNotations.
Open Scope Z_scope.

(** * Words *)
Inductive word : Type := WNum (n : Z) | WName (s : string) | WPlus | WMinus | WStar | WSlash | WCaret | WOpen | WClose.
Definition sign_word (c : ascii) : option word :=
  if Ascii.eqb c "+" then Some WPlus else if Ascii.eqb c "-" then Some WMinus else if Ascii.eqb c "*" then Some WStar
  else if Ascii.eqb c "/" then Some WSlash else if Ascii.eqb c "^" then Some WCaret
  else if Ascii.eqb c "{" then Some WOpen else if Ascii.eqb c "}" then Some WClose else None.
Definition cons_word (t : word) (r : option (list word)) : option (list word) :=
  match r with Some l => Some (t :: l) | None => None end.
(** The word being read, if any, is complete. *)
Definition finish (cur : option word) (r : option (list word)) : option (list word) :=
  match cur with Some t => cons_word t r | None => r end.
(** Splitting into words: digits form numbers; a letter or a backslash, followed by letters and digits, forms a name; the rest are signs. *)
Fixpoint words (cur : option word) (s : string) : option (list word) :=
  match s with
  | EmptyString => finish cur (Some [])
  | String c s' =>
      if is_digit c then
        match cur with
        | None => words (Some (WNum (code c - 48))) s'
        | Some (WNum n) => words (Some (WNum (10 * n + (code c - 48)))) s'
        | Some (WName x) => words (Some (WName (x ++ String c "")%string)) s'
        | Some _ => None
        end
      else if is_letter c then
        match cur with
        | None => words (Some (WName (String c ""))) s'
        | Some (WName x) => words (Some (WName (x ++ String c "")%string)) s'
        | Some _ => None
        end
      else if Ascii.eqb c "\" then finish cur (words (Some (WName (String c ""))) s')
      else match sign_word c with Some t => finish cur (cons_word t (words None s')) | None => None end
  end.

(** * Terms *)
(** A term read from the text: numerator and denominator of its number, and its powers of names, in the order in which they are written. *)
Definition qterm : Type := ((Z * Z) * list (string * Z))%type.
Definition qone : qterm := ((1, 1), []).
Definition qneg (neg : bool) (t : qterm) : qterm := if neg then ((- fst (fst t), snd (fst t)), snd t) else t.
(** Factors written above (or without a fraction bar) and below a fraction bar. *)
Definition qnum (below : bool) (n : Z) (t : qterm) : qterm :=
  let '((a, b), l) := t in if below then ((a, b * n), l) else ((a * n, b), l).
Definition qpow (below : bool) (x : string) (e : Z) (t : qterm) : qterm :=
  let '(ab, l) := t in (ab, l ++ [(x, if below then - e else e)]).

(** * TeX *)
(** Where the next word is: outside of a fraction, in its numerator, before the brace of its denominator or in its denominator;
    in a part of a fraction, whether something was read in it. *)
Inductive place : Type := Outside | Above (some : bool) | Between | Below (some : bool).
Definition is_below (p : place) : bool := match p with Below _ => true | _ => false end.
Definition seen (p : place) : place := match p with Above _ => Above true | Below _ => Below true | _ => p end.
Definition cons_term (t : qterm) (r : option (list qterm)) : option (list qterm) := match r with Some l => Some (t :: l) | None => None end.
Definition so_far (cur : option qterm) : qterm := match cur with Some t => t | None => qone end.
(** [cur]: the product read so far in this term, if any; [neg]: a minus sign precedes the term. *)
Fixpoint tex_terms (p : place) (neg : bool) (cur : option qterm) (ts : list word) {struct ts} : option (list qterm) :=
  match p with
  | Between => match ts with WOpen :: r => tex_terms (Below false) neg cur r | _ => None end
  | _ =>
      match ts with
      | [] => match p, cur with Outside, Some t => Some [qneg neg t] | _, _ => None end
      | WNum n :: r => tex_terms (seen p) neg (Some (qnum (is_below p) n (so_far cur))) r
      | WOpen :: WName x :: WClose :: WCaret :: WOpen :: WNum e :: WClose :: r => tex_terms (seen p) neg (Some (qpow (is_below p) x e (so_far cur))) r
      | WOpen :: WName x :: WClose :: r => tex_terms (seen p) neg (Some (qpow (is_below p) x 1 (so_far cur))) r
      | WName f :: WOpen :: r => match p with Outside => if (f =? "\frac")%string then tex_terms (Above false) neg (Some (so_far cur)) r else None | _ => None end
      | WClose :: r => match p with Above true => tex_terms Between neg cur r | Below true => tex_terms Outside neg cur r | _ => None end
      | WPlus :: r => match p, cur with Outside, Some t => cons_term (qneg neg t) (tex_terms Outside false None r) | _, _ => None end
      | WMinus :: r => match p, cur with Outside, Some t => cons_term (qneg neg t) (tex_terms Outside true None r) | _, _ => None end
      | _ => None
      end
  end.
(** The sum that a TeX text denotes. *)
Definition read_tex (s : string) : option (list qterm) :=
  match words None s with
  | Some (WMinus :: r) => tex_terms Outside true None r
  | Some ts => tex_terms Outside false None ts
  | None => None
  end.

(** * Plain text *)
(** A complete factor, multiplied with the product read so far, is followed by the rest of the text. *)
Definition follow (read : bool -> qterm -> list word -> option (list qterm)) (neg : bool) (t : qterm) (r : list word) : option (list qterm) :=
  match r with
  | [] => Some [qneg neg t]
  | WStar :: r' => read neg t r'
  | WPlus :: r' => cons_term (qneg neg t) (read false qone r')
  | WMinus :: r' => cons_term (qneg neg t) (read true qone r')
  | _ => None
  end.
Fixpoint plain_terms (neg : bool) (t : qterm) (ts : list word) : option (list qterm) :=
  match ts with
  | WNum a :: WSlash :: WNum b :: r => follow plain_terms neg (qnum true b (qnum false a t)) r
  | WNum a :: r => follow plain_terms neg (qnum false a t) r
  | WName x :: WStar :: WStar :: WMinus :: WNum e :: r => follow plain_terms neg (qpow false x (- e) t) r
  | WName x :: WStar :: WStar :: WNum e :: r => follow plain_terms neg (qpow false x e t) r
  | WName x :: r => follow plain_terms neg (qpow false x 1 t) r
  | _ => None
  end.
Definition read_plain (s : string) : option (list qterm) :=
  match words None s with
  | Some (WMinus :: r) => plain_terms true qone r
  | Some ts => plain_terms false qone ts
  | None => None
  end.

(** * What should be read *)
(** A name: a letter, an underscore or a backslash followed by letters, digits and underscores. *)
Definition tex_name (s : string) : Prop :=
  match s with
  | EmptyString => False
  | String c s' => (is_letter c || Ascii.eqb c "\") = true /\ all_alnum s'
  end.
(** The same number, and the same powers in whatever order. *)
Definition same_qterm (a b : qterm) : Prop := fst a = fst b /\ Permutation (snd a) (snd b).

Example read_tex_ex : read_tex "-\frac{3}{4}{x}^{2}{\alpha}+{z}-2\frac{{y}}{{x}{z1}^{3}}+7" =
  Some [((-3, 4), [("x", 2); ("\alpha", 1)]); ((1, 1), [("z", 1)]); ((-2, 1), [("y", 1); ("x", -1); ("z1", -3)]); ((7, 1), [])]%string.
Proof. reflexivity. Qed.
Example read_tex_no : Forall (fun s => read_tex s = None) ["x"; ""; "{x"; "{x}+"; "+{x}"; "{x}+-{y}"; "\frac{1}"; "\frac{}{{x}}"; "{x}^2"; "\frac{1}{2"; "{}"; "2x"]%string.
Proof. repeat constructor. Qed.
Example read_plain_ex : read_plain "-3/4*x**2*\alpha+z-2*y*x**-1+7" =
  Some [((-3, 4), [("x", 2); ("\alpha", 1)]); ((1, 1), [("z", 1)]); ((-2, 1), [("y", 1); ("x", -1)]); ((7, 1), [])]%string.
Proof. reflexivity. Qed.
Example read_plain_no : Forall (fun s => read_plain s = None) ["x y"; ""; "x*"; "x+"; "+x"; "x+-y"; "x**"; "1/x"; "x/2"; "2x"; "x***2"; "x**1/2"]%string.
Proof. repeat constructor. Qed.
