(** Vocabulary of C78: a series type is a list of levels (key, tag), the outermost first, over a non-series type. *)
From Coq Require Import List Bool.
From Verif Require Import TypeModel.
Import ListNotations.

Section S.
Context {B K G : Type} (M : tbl B K G).
Notation ty := (ty B K G).
Fixpoint levels (x : ty) : list (K * G) := match x with TB _ => [] | TS k c t => (k, t) :: levels c end.
Fixpoint leaf (x : ty) : B := match x with TB b => b | TS _ c _ => leaf c end.
Definition build (l : list (K * G)) (b : B) : ty := fold_right (fun e c => TS (fst e) c (snd e)) (TB b) l.
Definition keys (x : ty) : list K := map fst (levels x).
(** [s] is an end part of [l]: the innermost levels agree. *)
Definition inner_part {A} (s l : list A) : Prop := exists pre, l = pre ++ s.
(** One of the lists is an end part of the other; the longer one. *)
Definition nested {A} (s l : list A) : Prop := inner_part s l \/ inner_part l s.
Definition longer {A} (s l : list A) : list A := if Nat.ltb (length s) (length l) then l else s.
Definition shorter {A} (s l : list A) : list A := if Nat.ltb (length s) (length l) then s else l.
(** The coefficients are coefficient types (so the series type exists) and the keys can merge symbols, as the ones of the library do. *)
Fixpoint good (x : ty) : Prop := match x with TB _ => True | TS k c _ => is_cf M c = true /\ t_merge M k = true /\ good c end.

(** What is assumed of the table of the non-series types. *)
Record same_ok : Prop := {
  so_b : forall a b, t_beq M a b = true <-> a = b; so_k : forall a b, t_keq M a b = true <-> a = b; so_g : forall a b, t_geq M a b = true <-> a = b;
  so_copy : forall a, t_ctor M a a = true
}.
(** The result of an operation is a coefficient type and both operands convert to it. *)
Definition promotes (op : B -> B -> option B) : Prop := forall a b c, op a b = Some c -> t_cf M c = true /\ t_ctor M c a = true /\ t_ctor M c b = true.
(** The result type absorbs the operand types. *)
Definition absorbs (op : B -> B -> option B) (ip : B -> B -> bool) : Prop :=
  forall a b c, op a b = Some c -> op c a = Some c /\ op c b = Some c /\ ip c a = true /\ ip c b = true /\ t_zt M a = true /\ t_zt M b = true.
(** The same for quotients, whose right operand stays as it is. *)
Definition absorbs_right (op : B -> B -> option B) (ip : B -> B -> bool) : Prop := forall a b c, op a b = Some c -> op c b = Some c /\ ip c b = true.
(** Types that are levels of polynomials. *)
Definition polys (l : list (K * G)) : Prop := forall k t, In (k, t) l -> t_mmul M k = true /\ t_poly M t = true.
End S.
