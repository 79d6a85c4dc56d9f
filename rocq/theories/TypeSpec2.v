(** Vocabulary of C94. *)
From Coq Require Import List Bool.
From Verif Require Import TypeModel TypeSpec TypeModel2.
Import ListNotations.

Section S.
Context {B K G : Type} (M : tbl B K G) (D : tbl2 B K).
Notation ty := (ty B K G).
(** Non-series types as C++ and mp++ numbers of at least the rank of int: sums, products and quotients of a and b have the common type [j a b], every type converts to
    every other, all of them are coefficient types with all the operations the library asks for, and the derivative of a number is a number of its type. *)
Record numbers (j : B -> B -> B) : Prop := {
  nu_add : forall a b, t_add M a b = Some (j a b); nu_mul : forall a b, t_mul M a b = Some (j a b); nu_div : forall a b, t_div M a b = Some (j a b);
  nu_comm : forall a b, j a b = j b a; nu_assoc : forall a b c, j a (j b c) = j (j a b) c; nu_idem : forall a, j a a = a;
  nu_ctor : forall a b, t_ctor M a b = true; nu_int : forall a, t_int M a = true; nu_cf : forall a, t_cf M a = true; nu_zt : forall a, t_zt M a = true;
  nu_imul : forall a b, t_imul M a b = true; nu_idiv : forall a b, t_idiv M a b = true; nu_iadd : forall a b, d_iadd D a b = true; nu_req : forall a, d_req D a = true;
  nu_diff : forall a, d_diff D a = Some a
}.
(** There is one tag of polynomials. *)
Definition one_poly : Prop := forall t t', t_poly M t = true -> t_poly M t' = true -> t = t'.
(** The common type of the types in a list; None for an empty list. *)
Fixpoint common (j : B -> B -> B) (l : list B) : option B := match l with [] => None | d :: l => Some match common j l with None => d | Some s => j d s end end.
Definition to_list {A} (o : option A) : list A := match o with Some a => [a] | None => [] end.
(** The types of the degrees of the keys of [x], the outermost first, and of the innermost coefficients. *)
Definition degrees (x : ty) : list B := flat_map (fun k => to_list (d_kdeg D k)) (keys x) ++ to_list (d_deg D (leaf x)).
(** The common type of [b] and of [f k] for the keys [k] in the list. *)
Definition joined (j : B -> B -> B) (f : K -> B) (l : list K) (b : B) : B := fold_right (fun k a => j (f k) a) b l.
End S.
