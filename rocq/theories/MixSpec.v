(** Specification vocabulary for the multiplication of polynomials with coefficients of different types. *)
From Coq Require Import ZArith List Bool String Arith Sorted Permutation.
From Verif Require Import Base KeyOps SymModel SymSpec PMonSpec SeriesModel SeriesSpec PolyModel PolySpec MixModel.
Import ListNotations.
Open Scope Z_scope.

(** The conversion f from the coefficients C' to C adds no terms and loses none. *)
Record cf_embedding {C' C : Type} (CO' : cf_ops C') (CO : cf_ops C) (f : C' -> C) : Prop := {
  emb_zero : f (c_zero CO') = c_zero CO;
  emb_add : forall a b, f (c_add CO' a b) = c_add CO (f a) (f b);
  emb_nonzero : forall c, f c = c_zero CO -> c = c_zero CO'
}.

(** The environment: see [env_ok]. *)
Record mix_env_ok {K C1 C2 Tag : Type} (KO : key_ops K) (KS : key_sem K) (E : mix_env K C1 C2 Tag) : Prop := {
  mo_check : forall (ss : symbol_set) r1 r2, Forall (ks_valid KS (List.length ss)) r1 -> Forall (ks_valid KS (List.length ss)) r2 ->
    k_overflow_check KO true ss r1 r2 (mx_check E ss r1 r2);
  mo_sort : forall ks, Permutation (mx_sort E ks) (seq 0 (List.length ks)) /\ StronglySorted Z.le (pick_all ks (mx_sort E ks))
}.

(** The coefficient of ws in the product: the sum of the products of coefficients over the pairs of terms whose exponents add up to ws. *)
Definition mixed_prod_coef {K C1 C2 C Tag : Type} (KS : key_sem K) (CO : cf_ops C) (cmul : C1 -> C2 -> C) (us : symbol_set)
  (x : series K C1 Tag) (y : series K C2 Tag) (ws : list Z) : C :=
  csum CO (map (fun p => cmul (snd (fst p)) (snd (snd p)))
    (filter (fun p => vec_eqb (vadd (spread (s_ss x) us (ks_exps KS (List.length (s_ss x)) (fst (fst p))))
                                    (spread (s_ss y) us (ks_exps KS (List.length (s_ss y)) (fst (snd p))))) ws)
      (list_prod (terms x) (terms y)))).
