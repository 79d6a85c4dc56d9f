(** Specification vocabulary for series: what keys and coefficients mean, the polynomial a
    series denotes, and the invariants of the class.  Independent of the operations of SeriesModel.v. *)
From Coq Require Import ZArith List Bool String Arith Sorted Permutation Ring_theory.
From Verif Require Import Base SymSpec SymModel PMonSpec KeyOps SeriesModel.
Import ListNotations.
Open Scope Z_scope.

(** The meaning of a key type: which keys are encodings of an exponent vector over n symbols, the exponents
    read from such a key, which exponent vectors are representable, for which vectors the (partial) degree is computable
    in the degree type, and which total degrees the multiplication accepts. *)
Record key_sem (K : Type) : Type := {
  ks_valid : nat -> K -> Prop;
  ks_exps : nat -> K -> list Z;
  ks_fits : list Z -> Prop;
  ks_deg_fits : list Z -> Prop;
  ks_total_ok : Z -> Prop
}.
Arguments ks_valid {K}. Arguments ks_exps {K}. Arguments ks_fits {K}. Arguments ks_deg_fits {K}. Arguments ks_total_ok {K}.

(** The key operations act on exponent vectors as they should (proved for packed_monomial and d_packed_monomial in
    KeyInst.v). *)
Record key_laws {K : Type} (KO : key_ops K) (KS : key_sem K) : Prop := {
  kl_eqb : forall a b, k_eqb KO a b = true <-> a = b;
  kl_hash : forall k, 0 <= k_hash KO k < 2 ^ 64;
  kl_len : forall n k, ks_valid KS n k -> List.length (ks_exps KS n k) = n;
  kl_fits : forall n k, ks_valid KS n k -> ks_fits KS (ks_exps KS n k);
  kl_inj : forall n k k', ks_valid KS n k -> ks_valid KS n k' -> ks_exps KS n k = ks_exps KS n k' -> k = k';
  kl_surj : forall vs, ks_fits KS vs -> exists k, ks_valid KS (List.length vs) k /\ ks_exps KS (List.length vs) k = vs;
  kl_fits_dec : forall vs, ks_fits KS vs \/ ~ ks_fits KS vs;
  kl_deg_dec : forall vs, ks_deg_fits KS vs \/ ~ ks_deg_fits KS vs;
  kl_compat : forall k ss, exists b, k_compatible KO k ss = Ok b /\ (ks_valid KS (List.length ss) k -> b = true);
  kl_zero : forall k ss, k_is_zero KO k ss = false;
  kl_one : forall k (ss : symbol_set), ks_valid KS (List.length ss) k ->
    (k_is_one KO k ss = true <-> ks_exps KS (List.length ss) k = repeat 0 (List.length ss));
  kl_unit : forall ss : symbol_set, ks_fits KS (repeat 0 (List.length ss)) ->
    ks_valid KS (List.length ss) (k_of_ss KO ss) /\ ks_exps KS (List.length ss) (k_of_ss KO ss) = repeat 0 (List.length ss);
  kl_merge : forall k (s : symbol_set) m, ks_valid KS (List.length s) k -> ins_map_ok (List.length s) m ->
    let ws := insert_zeros m (ks_exps KS (List.length s) k) in
    (ks_fits KS ws -> exists r, k_merge KO k m s = Ok r /\ ks_valid KS (List.length ws) r /\ ks_exps KS (List.length ws) r = ws) /\
    (~ ks_fits KS ws -> k_merge KO k m s = Throw overflow_error \/ k_merge KO k m s = Throw safe_cast_failure);
  kl_degree : forall k (ss : symbol_set), ks_valid KS (List.length ss) k ->
    let vs := ks_exps KS (List.length ss) k in
    (ks_deg_fits KS vs -> k_degree KO k ss = Ok (vsum vs)) /\
    (~ ks_deg_fits KS vs -> k_degree KO k ss = Throw overflow_error);
  kl_p_degree : forall k (ss : symbol_set) si, ks_valid KS (List.length ss) k -> StronglySorted lt si ->
    let vs := select (fun i => mem i si) (ks_exps KS (List.length ss) k) in
    (ks_deg_fits KS vs -> k_p_degree KO k si ss = Ok (vsum vs)) /\
    (~ ks_deg_fits KS vs -> k_p_degree KO k si ss = Throw overflow_error);
  kl_trim_identify : forall (ss : symbol_set) ks, Forall (ks_valid KS (List.length ss)) ks ->
    exists v, rfold (fun v k => k_trim_identify KO v k ss) ks (repeat 1 (List.length ss)) = Ok v /\
      List.length v = List.length ss /\
      forall i, (i < List.length ss)%nat ->
        (nth i v 0 = 1 <-> forall k, In k ks -> nth i (ks_exps KS (List.length ss) k) 0 = 0) /\ (nth i v 0 = 1 \/ nth i v 0 = 0);
  kl_trim : forall k (ss : symbol_set) si, ks_valid KS (List.length ss) k -> StronglySorted lt si ->
    (forall y, In y si -> (y < List.length ss)%nat) ->
    exists r, k_trim KO k si ss = Ok r /\ ks_valid KS (List.length ss - List.length si) r /\
      ks_exps KS (List.length ss - List.length si) r = select (fun i => negb (mem i si)) (ks_exps KS (List.length ss) k);
  kl_mul : forall a b (ss : symbol_set), ks_valid KS (List.length ss) a -> ks_valid KS (List.length ss) b ->
    let ws := vadd (ks_exps KS (List.length ss) a) (ks_exps KS (List.length ss) b) in
    ks_fits KS ws ->
    exists r, k_mul KO a b ss = Ok r /\ ks_valid KS (List.length ss) r /\ ks_exps KS (List.length ss) r = ws /\
      k_hash KO r = (k_hash KO a + k_hash KO b) mod 2 ^ 64;
  kl_check : forall ra (ss : symbol_set) r1 r2, Forall (ks_valid KS (List.length ss)) r1 -> Forall (ks_valid KS (List.length ss)) r2 ->
    (exists v, k_overflow_check KO ra ss r1 r2 v) /\
    forall v, k_overflow_check KO ra ss r1 r2 v ->
      exists b, v = Ok b /\
        (b = true <-> forall p q, In p r1 -> In q r2 ->
           ks_fits KS (vadd (ks_exps KS (List.length ss) p) (ks_exps KS (List.length ss) q)) /\
           ks_total_ok KS (vsum (ks_exps KS (List.length ss) p) + vsum (ks_exps KS (List.length ss) q)));
  kl_pow : forall k (ss : symbol_set) n, ks_valid KS (List.length ss) k ->
    let ws := vscale n (ks_exps KS (List.length ss) k) in
    (ks_fits KS ws -> exists r, k_pow KO k (Some n) ss = Ok r /\ ks_valid KS (List.length ss) r /\ ks_exps KS (List.length ss) r = ws) /\
    (~ ks_fits KS ws -> k_pow KO k (Some n) ss = Throw overflow_error) /\
    k_pow KO k None ss = Throw invalid_argument;
  kl_diff : forall k (ss : symbol_set) idx, ks_valid KS (List.length ss) k -> (idx < List.length ss)%nat ->
    let vs := ks_exps KS (List.length ss) k in let e := nth idx vs 0 in
    (e = 0 -> k_diff KO k idx ss = Ok (0, k)) /\
    (e <> 0 -> ks_fits KS (set_at idx (e - 1) vs) ->
       exists r, k_diff KO k idx ss = Ok (e, r) /\ ks_valid KS (List.length ss) r /\ ks_exps KS (List.length ss) r = set_at idx (e - 1) vs) /\
    (e <> 0 -> ~ ks_fits KS (set_at idx (e - 1) vs) -> k_diff KO k idx ss = Throw overflow_error);
  kl_integrate : forall k (ss : symbol_set) idx, ks_valid KS (List.length ss) k -> (idx < List.length ss)%nat ->
    let vs := ks_exps KS (List.length ss) k in let e := nth idx vs 0 in
    (e = -1 -> k_integrate KO k idx ss = Throw domain_error) /\
    (e <> -1 -> ks_fits KS (set_at idx (e + 1) vs) ->
       exists r, k_integrate KO k idx ss = Ok (e + 1, r) /\ ks_valid KS (List.length ss) r /\ ks_exps KS (List.length ss) r = set_at idx (e + 1) vs) /\
    (e <> -1 -> ~ ks_fits KS (set_at idx (e + 1) vs) -> k_integrate KO k idx ss = Throw overflow_error);
  kl_evaluate : forall (V U : Type) (vone : V) vmul (vpow : U -> Z -> res V) pw k (ss : symbol_set) (xs : list U),
    ks_valid KS (List.length ss) k -> List.length xs = List.length ss ->
    let vs := ks_exps KS (List.length ss) k in
    (forall x e, In (x, e) (combine xs vs) -> vpow x e = Ok (pw x e)) ->
    k_evaluate KO vone vmul vpow k (combine (seq 0 (List.length ss)) xs) ss =
    Ok (fold_left vmul (map (fun q => pw (fst q) (snd q)) (combine xs vs)) vone);
  kl_subs : forall (V U : Type) (vone : V) vmul (vpow : U -> Z -> res V) pw k (ss : symbol_set) (sm : list (nat * U)),
    ks_valid KS (List.length ss) k -> StronglySorted lt (map fst sm) ->
    (forall y, In y (map fst sm) -> (y < List.length ss)%nat) ->
    let vs := ks_exps KS (List.length ss) k in
    (forall i x, In (i, x) sm -> vpow x (nth i vs 0) = Ok (pw x (nth i vs 0))) ->
    exists q, k_subs KO vone vmul vpow k sm ss =
                Ok (fold_left vmul (map (fun a => pw (snd a) (nth (fst a) vs 0)) sm) vone, q) /\
              ks_valid KS (List.length ss) q /\ ks_exps KS (List.length ss) q = zero_at (map fst sm) vs
}.

(** The coefficients are a commutative ring with exact zero test and equality. *)
Record cf_laws {C : Type} (CO : cf_ops C) : Prop := {
  cl_ring : ring_theory (c_zero CO) (c_one CO) (c_add CO) (c_mul CO) (c_sub CO) (c_neg CO) (@eq C);
  cl_zero : forall c, c_is_zero CO c = true <-> c = c_zero CO;
  cl_eqb : forall a b, c_eqb CO a b = true <-> a = b;
  cl_one : c_one CO <> c_zero CO;
  cl_fma : forall a b c, c_fma CO a b c = c_add CO a (c_mul CO b c)
}.

(** The sum of the coefficients of the terms whose key satisfies P. *)
Definition csum {C : Type} (CO : cf_ops C) (l : list C) : C := fold_right (c_add CO) (c_zero CO) l.
Definition psum {K C : Type} (CO : cf_ops C) (P : K -> bool) (l : list (K * C)) : C :=
  csum CO (map snd (filter (fun e => P (fst e)) l)).

Definition vec_eqb (a b : list Z) : bool := if list_eq_dec Z.eq_dec a b then true else false.

(** The exponents vs, over the symbols ss, as exponents over the symbols us: by name, zero for symbols not in ss. *)
Definition spread (ss us : symbol_set) (vs : list Z) : list Z := map (expo ss vs) us.

(** The coefficient of the monomial with exponents ws over the symbols us in the polynomial denoted by s. *)
Definition coef {K C Tag : Type} (KS : key_sem K) (CO : cf_ops C) (us : symbol_set) (s : series K C Tag) (ws : list Z) : C :=
  psum CO (fun k => vec_eqb (spread (s_ss s) us (ks_exps KS (List.length (s_ss s)) k)) ws) (terms s).

(** "us is a set of symbols containing those of s". *)
Definition covers {K C Tag : Type} (us : symbol_set) (s : series K C Tag) : Prop := sorted_set us /\ incl (s_ss s) us.

(** The class invariants (the assertions of the destructor, series.hpp:837-884, and uniqueness of keys). For a single
    table the maximum table size is that of the container and is not checked by the library. *)
Record wf {K C Tag : Type} (KO : key_ops K) (KS : key_sem K) (CO : cf_ops C) (s : series K C Tag) : Prop := {
  wf_ss : sorted_set (s_ss s);
  wf_log2 : (s_log2 s <= max_log2_size)%nat;
  wf_tables : List.length (s_tables s) = (2 ^ s_log2 s)%nat;
  wf_keys : NoDup (map fst (terms s));
  wf_valid : forall k c, In (k, c) (terms s) -> ks_valid KS (List.length (s_ss s)) k;
  wf_nonzero : forall k c, In (k, c) (terms s) -> c <> c_zero CO;
  wf_segment : forall i t k c, nth_error (s_tables s) i = Some t -> In (k, c) t ->
    Z.of_nat i = (k_hash KO k) mod 2 ^ Z.of_nat (s_log2 s);
  wf_max : s_log2 s <> 0%nat -> forall t, In t (s_tables s) -> Z.of_nat (List.length t) <= max_table_size (s_log2 s)
}.

(** A term of s is not representable over the symbols u. *)
Definition unrep {K C Tag : Type} (KS : key_sem K) (u : symbol_set) (s : series K C Tag) : Prop :=
  exists k c, In (k, c) (terms s) /\ ~ ks_fits KS (spread (s_ss s) u (ks_exps KS (List.length (s_ss s)) k)).

(** The symbols of the two series, merged, do not suffice: some term of x or y is not representable over them. *)
Definition union_of (x y u : symbol_set) : Prop := sorted_set u /\ (forall z, In z u <-> In z x \/ In z y).

(** n terms can fill a segment of a series with 2^lg > 1 segments. *)
Definition full (lg : nat) (n : nat) : Prop := lg <> 0%nat /\ max_table_size lg <= Z.of_nat n.

(** The tags compare equal (always, if the tag type is not comparable). *)
Definition tags_equal {Tag : Type} (TO : tag_ops Tag) (a b : Tag) : Prop :=
  match tag_eqb TO with Some e => e a b = true | None => True end.

(** m is the maximum of the values, 0 if there are none. *)
Definition is_max (vals : list Z) (m : Z) : Prop := (vals = [] /\ m = 0) \/ (In m vals /\ forall v, In v vals -> v <= m).

(** The i-th symbol occurs in some term of s with nonzero exponent. *)
Definition occurs {K C Tag : Type} (KS : key_sem K) (s : series K C Tag) (i : nat) : Prop :=
  exists k c, In (k, c) (terms s) /\ nth i (ks_exps KS (List.length (s_ss s)) k) 0 <> 0.
