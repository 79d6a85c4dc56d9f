(** Properties C24-C33, C37, C39-C42: the series class.  Vocabulary: SeriesSpec.v ([wf]: the class invariants,
    [coef us s ws]: the coefficient, in the polynomial denoted by s, of the monomial whose exponents over the symbols us are
    ws, symbols being identified by name).  The theorems hold for every key type satisfying [key_laws] - proved for
    packed_monomial and d_packed_monomial in KeyInst.v - every commutative coefficient ring, and every iteration order of the
    hash tables ([PO]). *)
From Coq Require Import ZArith List Bool String Arith Sorted Permutation Lia Ring Ring_theory.
From Verif Require Import Base KpackModel KpackSpec KpackProofs P_Kpack IntModel SymModel SymSpec SymProofs P_Sym PMonModel PMonSpec PMonProofs PMonProofs2 P_PMon KeyOps KeyInst
  SeriesModel SeriesModel2 SeriesSpec SeriesProofs SeriesProofs2 SeriesProofs3 SeriesProofs4 SeriesProofs5 SeriesProofs6 Lin SeriesEval SeriesProofs7 CfInst.
Import ListNotations.
Open Scope Z_scope.
Local Notation len := List.length.

(** Both outcomes allowed for an operation that has to represent keys over a larger symbol set. *)
Definition key_overflow {A : Type} (r : res A) : Prop := r = Throw overflow_error \/ r = Throw safe_cast_failure.

Section PS.
Context {K C Tag : Type} (KO : key_ops K) (KS : key_sem K) (CO : cf_ops C) (PO : tbl_policy (K * C)) (TO : tag_ops Tag).
Context (KL : key_laws KO KS) (CL : cf_laws CO).
Notation "0c" := (c_zero CO).
Notation "a +c b" := (c_add CO a b) (at level 50, left associativity).
Notation "a -c b" := (c_sub CO a b) (at level 50, left associativity).
Notation "a *c b" := (c_mul CO a b) (at level 40, left associativity).
Notation "-c x" := (c_neg CO x) (at level 35).
Notation series := (series K C Tag).
Notation valid s k := (ks_valid KS (List.length (s_ss s)) k).
Notation exps s k := (ks_exps KS (List.length (s_ss s)) k).
Notation WF := (wf KO KS CO).
Notation coef := (coef KS CO).
Add Ring Cring : (cl_ring _ CL).

(** The coefficient stored for the key k (0 if there is none). *)
Definition stored (s : series) (k : K) (c : C) : Prop := In (k, c) (terms s) \/ (c = 0c /\ ~ exists d, In (k, d) (terms s)).

Lemma stored_psum (s : series) k c : WF s -> (stored s k c <-> psum CO (fun x => k_eqb KO x k) (terms s) = c).
Proof.
  intros W. assert (ND := wf_keys _ _ _ _ W). unfold stored. split.
  - intros [I|[-> N]]; [apply (lookup_ok KO KS CO KL CL); auto|]. apply (lookup_none KO KS CO KL CL).
    intros I. apply in_map_iff in I as ([k' d] & <- & I). apply N. exists d. exact I.
  - intros E. destruct (in_dec (k_dec KO KS KL) k (map fst (terms s))) as [I|I].
    + left. apply in_map_iff in I as ([k' d] & Ek & I). cbn in Ek. subst k'. rewrite (lookup_ok KO KS CO KL CL _ k d ND I) in E. subst. exact I.
    + right. rewrite (lookup_none KO KS CO KL CL) in E by exact I. split; auto. intros (d & J). apply I. apply in_map_iff. exists (k, d); auto.
Qed.

(** C25. Inserting a term with a valid key changes the coefficient of that key by +c / -c and nothing else; a zero result is
    not stored (by [WF]).  The only exception is overflow_error, when the key's segment holds the maximum number of terms. *)
Theorem add_term_exact : forall sign (s : series) k c, WF s -> valid s k ->
  (exists s', add_term KO CO PO sign s k c = Ok s' /\ WF s' /\
     s_ss s' = s_ss s /\ s_tag s' = s_tag s /\ s_log2 s' = s_log2 s /\
     (forall x d, x <> k -> (In (x, d) (terms s') <-> In (x, d) (terms s))) /\
     (forall d, stored s k d -> stored s' k (if sign then d +c c else d -c c))) \/
  (add_term KO CO PO sign s k c = Throw overflow_error /\
   exists t, nth_error (s_tables s) (table_index KO (len (s_tables s)) k) = Some t /\ s_log2 s <> 0%nat /\
     Z.of_nat (len t) = max_table_size (s_log2 s)).
Proof.
  intros sign s k c W V. destruct (add_term_gen KO KS CO PO KL CL sign true true true false s k c W V) as [(s' & E & W' & M & O & P & _)|(E & L & _)]; auto; try discriminate.
  - left. exists s'. destruct M as (M1 & M2 & M3). repeat (split; auto).
    intros d SD. apply (stored_psum _ _ _ W'). apply (stored_psum _ _ _ W) in SD. rewrite P, SD, (keqb_refl KO KS KL). unfold ifP, sg. destruct sign; ring.
  - right. split; [exact E|]. unfold add_term, series_add_term in E.
    assert (W' := W). apply wf_iff in W'; auto. destruct W' as (_ & _ & LT & _).
    destruct (table_index_ok KO KS KL s k LT) as [_ Hi].
    destruct (rd (s_tables s) (table_index KO (len (s_tables s)) k)) as [t| |] eqn:R.
    + apply rd_some in R. exists t. split; [exact R|]. split; [exact L|]. cbn [bind] in E. unfold series_add_term_table in E.
      destruct (Z.eqb_spec (Z.of_nat (len t)) (max_table_size (s_log2 s))); auto. exfalso. rewrite andb_false_r in E.
      destruct (kl_compat _ _ KL k (s_ss s)) as (b & Eb & Hb). rewrite Eb, (Hb V) in E. cbn [bind negb] in E.
      destruct (tbl_try_emplace KO PO t k c). cbn [bind] in E. discriminate.
    + unfold rd in R. destruct (nth_error _ _); discriminate.
    + exfalso. unfold rd in R. destruct (nth_error _ _) eqn:N; [discriminate|]. apply nth_error_None in N. lia.
Qed.

(** C25. A key that is not compatible with the symbol set is rejected. *)
Theorem add_term_rejects : forall sign (s : series) k c, WF s -> k_compatible KO k (s_ss s) = Ok false ->
  add_term KO CO PO sign s k c = Throw invalid_argument \/
  (add_term KO CO PO sign s k c = Throw overflow_error /\ s_log2 s <> 0%nat).
Proof.
  intros sign s k c W NC. assert (W' := W). apply wf_iff in W'; auto. destruct W' as (_ & _ & LT & _).
  destruct (table_index_ok KO KS KL s k LT) as [_ Hi]. unfold add_term, series_add_term.
  destruct (nth_error (s_tables s) (table_index KO (len (s_tables s)) k)) as [t|] eqn:N; [|apply nth_error_None in N; lia].
  unfold rd at 1 2. rewrite N. cbn [bind]. unfold series_add_term_table. destruct (Z.eqb_spec (Z.of_nat (len t)) (max_table_size (s_log2 s))).
  - destruct (Nat.eqb_spec (len (s_tables s)) 1) as [E1|E1]; cbn [andb negb].
    + rewrite NC. left. reflexivity.
    + right. split; [reflexivity|]. intros E0. rewrite E0 in LT. apply E1. exact LT.
  - rewrite andb_false_r, NC. left. reflexivity.
Qed.

(** C26. A range-for over the series visits every stored term exactly once and terminates after [size] increments; size, empty and
    find are consistent with it. *)
Theorem iteration_exact : forall s : series, WF s -> forall fuel, (series_size s <= fuel)%nat ->
  exists l, visit fuel s (series_begin s) = Ok l /\ Permutation l (List.concat (s_tables s)) /\ NoDup (map fst l) /\
    series_size s = len l /\ (series_empty s = true <-> l = []) /\
    (forall k c, In (k, c) l -> exists it, series_find KO s k = Ok it /\ it_eqb it (series_end s) = false /\ it_deref s it = Ok (k, c)) /\
    (forall k, ~ In k (map fst l) -> series_find KO s k = Ok (series_end s)).
Proof.
  intros s W fuel F. exists (terms s). split; [apply visit_all; exact F|]. split; [apply Permutation_refl|].
  assert (ND := wf_keys _ _ _ _ W). split; [exact ND|]. split; [apply size_terms|]. split; [apply empty_terms|]. split.
  - intros k c I. destruct (find_ok KO KS CO KL s k W) as [(it & d & E & N & D & J)|[_ N]].
    + exists it. split; [exact E|]. split; [exact N|]. rewrite D. repeat f_equal.
      apply (lookup_ok KO KS CO KL CL) in I; auto. apply (lookup_ok KO KS CO KL CL) in J; auto. congruence.
    + exfalso. apply N. apply in_map_iff. exists (k, c); auto.
  - intros k N. destruct (find_ok KO KS CO KL s k W) as [(it & d & E & _ & D & J)|[E _]]; auto.
    exfalso. apply N. apply in_map_iff. exists (k, d); auto.
Qed.

(** C26. Two iterators that can be dereferenced compare equal exactly when they refer to the same term, and neither is the end iterator. *)
Theorem iterator_equality : forall (s : series) (a b : iterator) ka ca kb cb, WF s -> it_deref s a = Ok (ka, ca) -> it_deref s b = Ok (kb, cb) ->
  (it_eqb a b = true <-> ka = kb) /\ it_eqb a (series_end s) = false /\ it_eqb (series_end s) a = false.
Proof.
  intros s [i p] [j q] ka ca kb cb W A B. unfold it_deref in A, B. cbn [fst snd] in A, B.
  destruct (Base.rd (s_tables s) i) as [t| |] eqn:Ht; cbn [bind] in A; try discriminate A.
  destruct (Base.rd (s_tables s) j) as [u| |] eqn:Hu; cbn [bind] in B; try discriminate B.
  destruct p as [p|]; [|discriminate A]. destruct q as [q|]; [|discriminate B].
  apply rd_some in A, B, Ht, Hu.
  split; [|split; unfold it_eqb, series_end; cbn [fst snd]; [apply andb_false_r|apply andb_false_r]].
  unfold it_eqb. cbn [fst snd]. rewrite andb_true_iff, !Nat.eqb_eq. split.
  - intros [-> ->]. rewrite Ht in Hu. inversion Hu; subst u. rewrite A in B. inversion B. reflexivity.
  - intros <-. pose proof W as W0. apply wf_iff in W0; auto. destruct W0 as (_ & _ & _ & W4).
    destruct (W4 i t Ht) as (N & X & _). destruct (W4 j u Hu) as (_ & Y & _).
    destruct (X ka ca (nth_error_In _ _ A)) as (_ & _ & E1). destruct (Y ka cb (nth_error_In _ _ B)) as (_ & _ & E2).
    assert (i = j) by (rewrite E1 in E2; apply Nat2Z.inj in E2; exact E2). subst j. split; [reflexivity|].
    rewrite Ht in Hu. inversion Hu; subst u.
    apply (proj1 (NoDup_nth_error (map fst t)) N); [rewrite map_length; apply nth_error_Some; rewrite A; discriminate|].
    rewrite (map_nth_error fst p t A), (map_nth_error fst q t B). reflexivity.
Qed.

(** C28. *)
Theorem add_sub_exact : forall sign (x y : series), WF x -> WF y -> Z.of_nat (len (s_ss x) + len (s_ss y)) <= imax size_t ->
  let out := if sign : bool then series_add KO CO PO TO x y else series_sub KO CO PO TO x y in
  (exists r, out = Ok r /\ WF r /\ union_of (s_ss x) (s_ss y) (s_ss r) /\ ~ unrep KS (s_ss r) x /\ ~ unrep KS (s_ss r) y /\
     forall us ws, coef us r ws = if sign then coef us x ws +c coef us y ws else coef us x ws -c coef us y ws) \/
  (key_overflow out /\
   ((exists u, union_of (s_ss x) (s_ss y) u /\ (unrep KS u x \/ unrep KS u y)) \/
    full (s_log2 x) (series_size x + series_size y) \/ full (s_log2 y) (series_size x + series_size y))).
Proof.
  intros sign x y Wx Wy B out.
  assert (E : out = series_addsub KO CO PO TO sign op_same op_same x y) by (unfold out; destruct sign; reflexivity). rewrite E. clear out E.
  rewrite !size_terms. unfold union_of, key_overflow.
  destruct (addsub_ok KO KS CO PO TO KL CL CO CO sign op_same op_same x y (op_same_ok KO KS CO) (op_same_ok KO KS CO) Wx Wy B)
    as [(r & E & W & U & _ & _ & D & _)|[E F]].
  - left. exists r. split; [exact E|]. split; [exact W|]. assert (UO : union_of (s_ss x) (s_ss y) (s_ss r)) by (split; [apply (wf_ss _ _ _ _ W)|exact U]). split; [exact UO|].
    split; [intros UN; exact (addsub_unrep KO KS CO KL CL PO TO sign x y (s_ss r) Wx Wy B UO (or_introl UN) r E)|].
    split; [intros UN; exact (addsub_unrep KO KS CO KL CL PO TO sign x y (s_ss r) Wx Wy B UO (or_intror UN) r E)|].
    intros us ws. rewrite !coef_nden, D. cbn [op_same o_conv]. unfold sg. destruct sign; ring.
  - right. split; [exact E|]. destruct F as [(u & S & U & F)|F]; [|right; exact F]. left. exists u. auto.
Qed.

(** C28, commutativity and anticommutativity: as polynomials. *)
Theorem add_commutative : forall (x y r r' : series), WF x -> WF y -> Z.of_nat (len (s_ss x) + len (s_ss y)) <= imax size_t ->
  (series_add KO CO PO TO x y = Ok r -> series_add KO CO PO TO y x = Ok r' -> s_ss r = s_ss r' /\ forall us ws, coef us r ws = coef us r' ws) /\
  (series_sub KO CO PO TO x y = Ok r -> series_sub KO CO PO TO y x = Ok r' -> s_ss r = s_ss r' /\ forall us ws, coef us r ws = -c (coef us r' ws)).
Proof.
  intros x y r r' Wx Wy B.
  assert (B' : Z.of_nat (len (s_ss y) + len (s_ss x)) <= imax size_t) by (rewrite Nat.add_comm; exact B).
  assert (SU : forall a b, union_of (s_ss x) (s_ss y) a -> union_of (s_ss y) (s_ss x) b -> a = b).
  { intros a b [S1 U1] [S2 U2]. apply sorted_ext; auto. intros z. rewrite U1, U2. tauto. }
  split; intros E1 E2.
  - pose proof (add_sub_exact true x y Wx Wy B) as A1. pose proof (add_sub_exact true y x Wy Wx B') as A2. cbn zeta iota in A1, A2. rewrite E1 in A1. rewrite E2 in A2.
    destruct A1 as [(? & [= <-] & _ & U1 & _ & _ & D1)|[[?|?] _]]; try discriminate. destruct A2 as [(? & [= <-] & _ & U2 & _ & _ & D2)|[[?|?] _]]; try discriminate.
    split; [apply SU; auto|]. intros us ws. rewrite D1, D2. ring.
  - pose proof (add_sub_exact false x y Wx Wy B) as A1. pose proof (add_sub_exact false y x Wy Wx B') as A2. cbn zeta iota in A1, A2. rewrite E1 in A1. rewrite E2 in A2.
    destruct A1 as [(? & [= <-] & _ & U1 & _ & _ & D1)|[[?|?] _]]; try discriminate. destruct A2 as [(? & [= <-] & _ & U2 & _ & _ & D2)|[[?|?] _]]; try discriminate.
    split; [apply SU; auto|]. intros us ws. rewrite D1, D2. ring.
Qed.

(** C29. x += y and x -= y, for distinct objects or the same object ([aliased], when y is x): the same polynomial as x + y, x - y.
    (The model returns the new value of x and has no way of changing y.) *)
Theorem in_place_exact : forall sign (x : series) (aliased : bool) (y : series), WF x -> WF y -> (aliased = true -> y = x) ->
  Z.of_nat (len (s_ss x) + len (s_ss y)) <= imax size_t ->
  let out := series_in_place_addsub KO CO PO CO PO TO sign (fun c => c) x aliased y in
  (exists r, out = Ok r /\ WF r /\ union_of (s_ss x) (s_ss y) (s_ss r) /\ s_log2 r = s_log2 x /\
     (forall us ws, coef us r ws = if sign : bool then coef us x ws +c coef us y ws else coef us x ws -c coef us y ws) /\
     (forall b, (if sign then series_add KO CO PO TO x y else series_sub KO CO PO TO x y) = Ok b ->
        s_ss r = s_ss b /\ Permutation (map fst (terms r)) (map fst (terms b)) /\ forall us ws, coef us r ws = coef us b ws)) \/
  (key_overflow out /\
   ((exists u, union_of (s_ss x) (s_ss y) u /\ (unrep KS u x \/ unrep KS u y)) \/
    full (s_log2 x) (series_size x + series_size y) \/ full (s_log2 y) (series_size x + series_size y))).
Proof.
  intros sign x aliased y Wx Wy A B out.
  assert (A' : aliased = true -> s_ss x = s_ss y) by (intros E; rewrite (A E); reflexivity).
  pose proof (in_place_ok KO KS CO CO PO PO TO KL CL CL (fun c => c) eq_refl (fun a b => eq_refl) sign x aliased y Wx Wy B A') as G.
  fold out in G. unfold inplace_good in G. rewrite !size_terms. unfold union_of, key_overflow.
  destruct G as [(r & E & W & U & LG & D & _)|[E F]].
  - left. exists r. split; [exact E|]. split; [exact W|]. split; [split; [apply (wf_ss _ _ _ _ W)|exact U]|]. split; [exact LG|].
    assert (D' : forall us ws, coef us r ws = if sign then coef us x ws +c coef us y ws else coef us x ws -c coef us y ws).
    { intros us ws. rewrite !coef_nden, D. unfold sg. destruct sign; ring. }
    split; [exact D'|]. intros b Eb. pose proof (add_sub_exact sign x y Wx Wy B) as P. cbn zeta in P. rewrite Eb in P.
    destruct P as [(b' & [= <-] & Wb & Ub & _ & _ & Db)|[[?|?] _]]; try discriminate.
    assert (SS : s_ss r = s_ss b).
    { destruct Ub as [S2 U2]. apply sorted_ext; auto; [apply (wf_ss _ _ _ _ W)|]. intros z. rewrite U, U2. tauto. }
    assert (CC : forall us ws, coef us r ws = coef us b ws) by (intros; rewrite D', Db; reflexivity).
    split; [exact SS|]. split; [|exact CC].
    assert (KK : forall (p q : series), WF p -> WF q -> s_ss p = s_ss q -> (forall us ws, coef us p ws = coef us q ws) -> incl (map fst (terms p)) (map fst (terms q))).
    { intros p q Wp Wq S E' k I. apply in_map_iff in I as ([k' c] & <- & I). cbn [fst].
      assert (Cp : covers (s_ss p) p) by (split; [apply (wf_ss _ _ _ _ Wp)|apply incl_refl]).
      assert (Cq : covers (s_ss p) q) by (split; [apply (wf_ss _ _ _ _ Wp)|rewrite S; apply incl_refl]).
      assert (NZ : coef (s_ss p) p (spread (s_ss p) (s_ss p) (exps p k')) <> 0c) by (apply (coef_nonzero KO KS CO KL CL); eauto).
      rewrite E' in NZ. apply (coef_nonzero KO KS CO KL CL (s_ss p) q) in NZ as (k2 & d & J & Ek); auto.
      assert (k2 = k').
      { apply (spread_exps_inj KO KS CO KL (s_ss p) q); auto; [eapply wf_valid; eauto|rewrite <- S; eapply wf_valid; eauto|]. rewrite Ek. rewrite <- S. reflexivity. }
      subst k2. apply in_map_iff. exists (k', d). auto. }
    apply NoDup_Permutation; [apply (wf_keys _ _ _ _ W)|apply (wf_keys _ _ _ _ Wb)|]. intros k. split; [apply (KK r b W Wb SS CC k)|apply (KK b r Wb W (eq_sym SS) (fun us ws => eq_sym (CC us ws)) k)].
  - right. split; [exact E|]. destruct F as [(u & S & U & F)|F]; [|right; exact F]. left. exists u. auto.
Qed.

(** C31. Equality is equality of polynomials (and of tags, if comparable). *)
Theorem equality_exact : forall x y : series, WF x -> WF y -> Z.of_nat (len (s_ss x) + len (s_ss y)) <= imax size_t ->
  (exists b, series_equal_to KO CO PO TO x y = Ok b /\ series_not_equal_to KO CO PO TO x y = Ok (negb b) /\
    (b = true <-> tags_equal TO (s_tag x) (s_tag y) /\ forall us ws, covers us x -> covers us y -> coef us x ws = coef us y ws)) \/
  (key_overflow (series_equal_to KO CO PO TO x y) /\
   ((exists u, union_of (s_ss x) (s_ss y) u /\ (unrep KS u x \/ unrep KS u y)) \/
    full (s_log2 x) (series_size x) \/ full (s_log2 y) (series_size y))).
Proof.
  intros x y Wx Wy B. rewrite !size_terms. destruct (equal_ok KO KS CO PO TO KL CL x y Wx Wy B) as [(b & E & I)|[E F]].
  - left. exists b. unfold series_not_equal_to. rewrite E. split; [reflexivity|]. split; [reflexivity|]. rewrite I. split.
    + intros [T H]. auto.
    + intros [T H]. split; [exact T|]. intros us ws.
      destruct (merge_symbol_sets_exact (s_ss x) (s_ss y) (wf_ss _ _ _ _ Wx) (wf_ss _ _ _ _ Wy) B) as (u & _ & _ & _ & Su & Iu & _).
      assert (Cx : covers u x) by (split; auto; intros z J; apply Iu; auto).
      assert (Cy : covers u y) by (split; auto; intros z J; apply Iu; auto).
      assert (G : forall (s : series), covers u s -> coef us s ws = psum CO (fun v => vec_eqb (spread u us v) ws) (vt KS u s)).
      { intros s [_ Is]. rewrite vt_psum. unfold nden. rewrite coef_nden. unfold nden. symmetry. apply (vden_spread KS CO u us s (fun v => vec_eqb v ws) Is). }
      rewrite (G x Cx), (G y Cy).
      assert (X : forall l1 l2 : list (list Z * C), (forall a, psum CO (fun v => vec_eqb v a) l1 = psum CO (fun v => vec_eqb v a) l2) ->
        forall Q, psum CO Q l1 = psum CO Q l2).
      { intros l1 l2 H12 Q. assert (PL : forall l : list (list Z * C), psum CO Q l = lin 0c (c_add CO) (c_mul CO) (fun c => c) (fun v => if Q v then c_one CO else 0c) l).
        { induction l as [|e l IH]; [reflexivity|]. cbn [lin]. rewrite (psum_cons CO CL), IH. unfold ifP. destruct (Q (fst e)); ring. }
        rewrite !PL. apply (lin_ext CO 0c (c_one CO) (c_add CO) (c_mul CO) (c_sub CO) (c_neg CO) (cl_ring _ CL) (list_eq_dec Z.eq_dec) (fun c => c) eq_refl (fun a b => eq_refl)).
        exact H12. }
      apply X. intros a. rewrite !vt_psum, <- !coef_nden. apply H; auto.
  - right. split; [exact E|]. destruct F as [(u & S & U & F)|F]; [|right; exact F]. left. exists u. split; [split|]; auto.
Qed.

(** C31. Reflexivity, symmetry, transitivity (where the comparisons return). *)
Theorem equality_equivalence : (forall e, tag_eqb TO = Some e -> forall a b, e a b = true <-> a = b) ->
  forall (x y z : series), WF x -> WF y -> WF z ->
  Z.of_nat (len (s_ss x) + len (s_ss x)) <= imax size_t -> Z.of_nat (len (s_ss x) + len (s_ss y)) <= imax size_t ->
  Z.of_nat (len (s_ss y) + len (s_ss z)) <= imax size_t -> Z.of_nat (len (s_ss x) + len (s_ss z)) <= imax size_t ->
  series_equal_to KO CO PO TO x x = Ok true /\
  (forall b b', series_equal_to KO CO PO TO x y = Ok b -> series_equal_to KO CO PO TO y x = Ok b' -> b = b') /\
  (forall b, series_equal_to KO CO PO TO x y = Ok true -> series_equal_to KO CO PO TO y z = Ok true ->
     series_equal_to KO CO PO TO x z = Ok b -> b = true).
Proof.
  intros TE x y z Wx Wy Wz B1 B2 B3 B4.
  assert (G : forall p q : series, WF p -> WF q -> Z.of_nat (len (s_ss p) + len (s_ss q)) <= imax size_t -> forall b,
    series_equal_to KO CO PO TO p q = Ok b -> (b = true <-> tags_equal TO (s_tag p) (s_tag q) /\ forall us ws, coef us p ws = coef us q ws)).
  { intros p q Wp Wq B b E. destruct (equal_ok KO KS CO PO TO KL CL p q Wp Wq B) as [(b' & E' & I)|[[E'|E'] _]]; try congruence. }
  assert (TR : forall a b, tags_equal TO a b <-> (match tag_eqb TO with Some _ => a = b | None => True end)).
  { intros a b. unfold tags_equal. destruct (tag_eqb TO) eqn:E; [apply TE; auto|tauto]. }
  split; [|split].
  - assert (exists b, series_equal_to KO CO PO TO x x = Ok b) as (b & E).
    { unfold series_equal_to. assert (ss_eqb (s_ss x) (s_ss x) = true) as -> by (apply ss_eqb_iff; reflexivity).
      destruct (cmp_ok KO KS CO TO KL CL x x Wx Wx eq_refl) as (r & E & _). exists r. exact E. }
    rewrite E. f_equal. apply (G x x Wx Wx B1 b E). split; [|reflexivity]. apply TR. destruct (tag_eqb TO); auto.
  - intros b b' E E'. assert (I := G x y Wx Wy B2 b E). rewrite Nat.add_comm in B2. assert (I' := G y x Wy Wx B2 b' E').
    apply eq_iff_eq_true. rewrite I, I', !TR. split; intros [T H]; (split; [destruct (tag_eqb TO); auto|intros; symmetry; apply H]).
  - intros b E1 E2 E3. apply (G x z Wx Wz B4 b E3). apply (G x y Wx Wy B2) in E1. apply (G y z Wy Wz B3) in E2.
    destruct E1 as [E1 _], E2 as [E2 _]. destruct (E1 eq_refl) as [T1 H1], (E2 eq_refl) as [T2 H2]. rewrite TR in *.
    split; [destruct (tag_eqb TO); [congruence|auto]|]. intros us ws. rewrite H1. apply H2.
Qed.

(** C32. Negation; multiplication and division by a coefficient. *)
Theorem negate_exact : forall x : series, WF x -> let r := series_negate CO x in
  WF r /\ s_ss r = s_ss x /\ s_tag r = s_tag x /\ s_log2 r = s_log2 x /\
  (forall k c, In (k, c) (terms r) <-> In (k, -c c) (terms x)) /\ forall us ws, coef us r ws = -c (coef us x ws).
Proof.
  intros x W r. destruct (negate_ok KO KS CO CL x W) as (W' & (M1 & M2 & M3) & P & _). fold r in W', M1, M2, M3, P.
  split; [exact W'|]. split; [exact M1|]. split; [exact M2|]. split; [exact M3|]. split.
  - intros k c. unfold r. rewrite negate_terms, in_map_iff. split.
    + intros ([k' d] & E & I). cbn in E. inversion E; subst. replace (-c (-c d)) with d by ring. exact I.
    + intros I. exists (k, -c c). cbn. split; [f_equal; ring|exact I].
  - intros us ws. unfold SeriesSpec.coef. rewrite P, M1. reflexivity.
Qed.

Theorem scalar_mul_exact : forall (x : series) b, WF x -> let r := series_scalar_mul KO CO x b in
  WF r /\ s_ss r = s_ss x /\ s_tag r = s_tag x /\ (forall us ws, coef us r ws = coef us x ws *c b) /\ (b = 0c -> terms r = []).
Proof.
  intros x b W r. destruct (scalar_mul_ok KO KS CO KL CL x b W) as (W' & S & T & P & _). fold r in W', S, T, P.
  split; [exact W'|]. split; [exact S|]. split; [exact T|]. split.
  - intros us ws. unfold SeriesSpec.coef. rewrite P, S. reflexivity.
  - intros Eb. unfold r, series_scalar_mul. assert (c_is_zero CO b = true) as -> by (apply (cl_zero _ CL); exact Eb). rewrite orb_true_r. reflexivity.
Qed.

Theorem scalar_div_exact : forall (U : Type) (cdiv : C -> U -> res C) (x : series) (y : U), WF x ->
  (exists r, series_scalar_div CO cdiv x y = Ok r /\ WF r /\ s_ss r = s_ss x /\ s_tag r = s_tag x /\ s_log2 r = s_log2 x /\
     (forall k d, In (k, d) (terms r) <-> d <> 0c /\ exists c, In (k, c) (terms x) /\ cdiv c y = Ok d) /\
     (forall k c, In (k, c) (terms x) -> exists d, cdiv c y = Ok d)) \/
  (exists k c, In (k, c) (terms x) /\ ((exists e, cdiv c y = Throw e /\ series_scalar_div CO cdiv x y = Throw e) \/
                                       (cdiv c y = UB /\ series_scalar_div CO cdiv x y = UB))).
Proof.
  intros U cdiv x y W. destruct (scalar_div_ok KO KS CO CL cdiv x y W) as [(r & E & W' & (M1 & M2 & M3) & A & B)|H]; [left|right; exact H].
  exists r. repeat (split; [assumption|]). exact A.
Qed.

(** Adding a coefficient to a series (either side), provided the unit monomial is representable over its symbols. *)
Theorem scalar_addsub_exact : forall sign (x : series) c, WF x -> ks_fits KS (repeat 0 (len (s_ss x))) ->
  (forall out rhs_is_series, out = (if rhs_is_series : bool then scalar_addsub_series KO CO PO sign c x else series_addsub_scalar KO CO PO sign x c) ->
   (exists r, out = Ok r /\ WF r /\ s_ss r = s_ss x /\ s_tag r = s_tag x /\ s_log2 r = s_log2 x /\
     forall ws, coef (s_ss x) r ws =
       let cst := if vec_eqb ws (repeat 0 (len (s_ss x))) then c else 0c in
       if rhs_is_series then (if sign then cst +c coef (s_ss x) x ws else cst -c coef (s_ss x) x ws)
       else (if sign then coef (s_ss x) x ws +c cst else coef (s_ss x) x ws -c cst)) \/
   (out = Throw overflow_error /\ full (s_log2 x) (series_size x))).
Proof.
  intros sign x c W F out b ->. destruct (kl_unit _ _ KL (s_ss x) F) as [V X]. rewrite size_terms.
  assert (G : forall sg' (z : series), WF z -> s_ss z = s_ss x -> s_tag z = s_tag x -> s_log2 z = s_log2 x -> len (terms z) = len (terms x) ->
    (exists r, series_add_term KO CO PO sg' true false true false z (k_of_ss KO (s_ss z)) c = Ok r /\ WF r /\ s_ss r = s_ss x /\ s_tag r = s_tag x /\ s_log2 r = s_log2 x /\
       forall ws, coef (s_ss x) r ws = coef (s_ss x) z ws +c sg CO sg' (if vec_eqb ws (repeat 0 (len (s_ss x))) then c else 0c)) \/
    (series_add_term KO CO PO sg' true false true false z (k_of_ss KO (s_ss z)) c = Throw overflow_error /\ full (s_log2 x) (len (terms x)))).
  { intros sg' z Wz E1 E2 E3 E4.
    destruct (add_term_gen KO KS CO PO KL CL sg' true false true false z (k_of_ss KO (s_ss z)) c Wz) as [(r & E & Wr & (M1 & M2 & M3) & _ & P & _)|(E & L & M)]; auto; try discriminate.
    - rewrite E1. exact V.
    - left. exists r. split; [exact E|]. split; [exact Wr|]. split; [congruence|]. split; [congruence|]. split; [congruence|].
      intros ws. unfold SeriesSpec.coef. rewrite P, M1, E1, X. f_equal. rewrite spread_self; [|apply sorted_set_nodup, (wf_ss _ _ _ _ W)|apply repeat_length].
      unfold ifP. assert (vec_eqb (repeat 0 (len (s_ss x))) ws = vec_eqb ws (repeat 0 (len (s_ss x)))) as ->.
      { apply eq_iff_eq_true. rewrite !vec_eqb_iff. split; auto. }
      destruct (vec_eqb ws _); auto. unfold sg. destruct sg'; ring.
    - right. split; [exact E|]. rewrite <- E3, <- E4. split; auto. }
  destruct b; unfold scalar_addsub_series, series_addsub_scalar.
  - destruct sign.
    + destruct (G true x W eq_refl eq_refl eq_refl eq_refl) as [(r & E & H)|H]; [left|right; exact H].
      exists r. split; [exact E|]. destruct H as (H1 & H2 & H3 & H4 & H5). repeat (split; [assumption|]). intros ws. rewrite H5. cbn [sg]. cbv zeta. ring.
    + destruct (negate_ok KO KS CO CL x W) as (W' & (M1 & M2 & M3) & P & L).
      destruct (G true (series_negate CO x) W' M1 M2 M3 L) as [(r & E & H)|H]; [left|right; exact H].
      exists r. split; [exact E|]. destruct H as (H1 & H2 & H3 & H4 & H5). repeat (split; [assumption|]). intros ws. rewrite H5.
      unfold SeriesSpec.coef at 1. rewrite P, M1. cbn [sg]. cbv zeta. fold (coef (s_ss x) x ws). ring.
  - destruct (G sign x W eq_refl eq_refl eq_refl eq_refl) as [(r & E & H)|H]; [left|right; exact H].
    exists r. split; [exact E|]. destruct H as (H1 & H2 & H3 & H4 & H5). repeat (split; [assumption|]). intros ws. rewrite H5. cbv zeta. unfold sg. destruct sign; ring.
Qed.

(** C33. Construction from a coefficient and conversion to one. *)
Theorem of_coefficient_exact : forall c (ss : symbol_set), sorted_set ss -> ks_fits KS (repeat 0 (len ss)) ->
  exists r : series, series_of_cf KO CO PO TO c ss = Ok r /\ WF r /\ s_ss r = ss /\ s_tag r = tag_default TO /\
    (c = 0c -> terms r = []) /\
    (c <> 0c -> exists k, terms r = [(k, c)] /\ ks_exps KS (len ss) k = repeat 0 (len ss)) /\
    forall (T : Type) (zero : T) (of_cf : C -> T), of_cf 0c = zero -> series_to_cf KO zero of_cf r = Ok (of_cf c).
Proof.
  intros c ss S F. destruct (of_cf_ok KO KS CO PO TO KL CL c ss S F) as (r & E & W & E1 & E2 & E3 & T). exists r.
  split; [exact E|]. split; [exact W|]. split; [exact E1|]. split; [exact E2|]. destruct (kl_unit _ _ KL ss F) as [V X].
  assert (Z0 := cl_zero _ CL c). destruct (c_is_zero CO c) eqn:Ez.
  - assert (c = 0c) by (apply Z0; auto). split; [auto|]. split; [congruence|]. intros T' zero of_cf Hz.
    destruct (to_cf_ok KO KS CO KL zero of_cf r W) as [[_ E']|[(k & d & T2 & _)|[(k & d & I & _) _]]]; [congruence|congruence|]. rewrite T in I. contradiction.
  - assert (c <> 0c) by (intros H; apply Z0 in H; discriminate). split; [congruence|]. split; [intros _; exists (k_of_ss KO ss); auto|].
    intros T' zero of_cf Hz.
    destruct (to_cf_ok KO KS CO KL zero of_cf r W) as [[T2 _]|[(k & d & T2 & _ & E')|[(k & d & I & N) _]]]; [congruence|congruence|].
    rewrite T in I. destruct I as [I|[]]. inversion I; subst. exfalso. apply N. exact X.
Qed.

Theorem to_coefficient_exact : forall (T : Type) (zero : T) (of_cf : C -> T) (s : series), WF s ->
  (terms s = [] -> series_to_cf KO zero of_cf s = Ok zero) /\
  (forall k c, terms s = [(k, c)] -> exps s k = repeat 0 (len (s_ss s)) -> series_to_cf KO zero of_cf s = Ok (of_cf c)) /\
  ((exists k c, In (k, c) (terms s) /\ exps s k <> repeat 0 (len (s_ss s))) -> series_to_cf KO zero of_cf s = Throw invalid_argument).
Proof.
  intros T zero of_cf s W. destruct (to_cf_ok KO KS CO KL zero of_cf s W) as [[T2 E]|[(k & d & T2 & X & E)|[(k & d & I & N) E]]].
  - split; [auto|]. rewrite T2. split; [discriminate|]. intros (k & c & [] & _).
  - rewrite T2. split; [discriminate|]. split; [intros k' c' [= <- <-] _; exact E|]. intros (k' & c' & [[= <- <-]|[]] & N). contradiction.
  - split; [intros T2; rewrite T2 in I; contradiction|]. split; [|auto]. intros k' c' T2 X. rewrite T2 in I. destruct I as [[= <- <-]|[]]. contradiction.
Qed.

(** C33. Construction from a series with other coefficients (the conversion g is additive). *)
Theorem convert_exact : forall (C' Tag' : Type) (CO' : cf_ops C') (CL' : cf_laws CO') (g : C' -> C) (tg : Tag) (x : SeriesModel.series K C' Tag'),
  g (c_zero CO') = 0c -> (forall a b, g (c_add CO' a b) = g a +c g b) -> wf KO KS CO' x ->
  exists r, series_convert KO CO PO g tg x = Ok r /\ WF r /\ s_ss r = s_ss x /\ s_log2 r = s_log2 x /\ s_tag r = tg /\
    (forall us ws, coef us r ws = g (SeriesSpec.coef KS CO' us x ws)).
Proof.
  intros C' Tag' CO' CL' g tg x G0 G1 W. destruct (convert_ok KO KS CO' CO PO KL CL CL' g G0 G1 tg x W) as (r & E & W' & E1 & E2 & E3 & P & _).
  exists r. repeat (split; [assumption|]). intros us ws. unfold SeriesSpec.coef. rewrite P, E1. reflexivity.
Qed.

(** C37. filter (in place) and filtered (copy) keep exactly the terms satisfying the predicate. *)
Theorem filter_exact : forall (f : K * C -> bool) (s : series), WF s ->
  let r := series_filter f s in
  WF r /\ s_ss r = s_ss s /\ s_tag r = s_tag s /\ s_log2 r = s_log2 s /\ (forall e, In e (terms r) <-> In e (terms s) /\ f e = true) /\
  exists r', series_filtered KO PO f s = Ok r' /\ WF r' /\ s_ss r' = s_ss s /\ s_tag r' = s_tag s /\ s_log2 r' = s_log2 s /\
    (forall e, In e (terms r') <-> In e (terms s) /\ f e = true).
Proof.
  intros f s W r. destruct (filter_ok KO KS CO f s W) as (W' & M1 & M2 & M3). fold r in W', M1, M2, M3.
  split; [exact W'|]. split; [exact M1|]. split; [exact M2|]. split; [exact M3|]. split; [intros e; unfold r; rewrite filter_terms; apply filter_In|].
  destruct (filtered_ok KO KS CO PO KL f s W) as (r' & E & W2 & (N1 & N2 & N3) & P). exists r'. repeat (split; [assumption|]).
  intros e. rewrite <- filter_In. split; apply Permutation_in; auto using Permutation_sym.
Qed.

(** C39. degree and p_degree: the maximum over the terms, or overflow_error if the degree of some term does not fit. *)
Theorem degree_exact : forall (s : series), WF s ->
  (exists m, series_degree KO s = Ok m /\ is_max (map (fun e => vsum (exps s (fst e))) (terms s)) m) \/
  (series_degree KO s = Throw overflow_error /\ exists k c, In (k, c) (terms s) /\ ~ ks_deg_fits KS (exps s k)).
Proof.
  intros s W. destruct (max_degree_ok (fun e => k_degree KO (fst e) (s_ss s)) (fun e => vsum (exps s (fst e))) (fun e => ks_deg_fits KS (exps s (fst e))) s) as [(m & E & _ & M)|[E ([k c] & I & N)]].
  - intros e. apply (kl_deg_dec _ _ KL).
  - intros [k c] I G. apply (kl_degree _ _ KL); auto. eapply wf_valid; eauto.
  - intros [k c] I G. apply (kl_degree _ _ KL); auto. eapply wf_valid; eauto.
  - left. eauto.
  - right. split; [exact E|]. exists k, c. auto.
Qed.

(** The sum of the exponents, in the monomial with exponents vs over ss, of the symbols that belong to syms. *)
Definition partial_degree (syms ss : symbol_set) (vs : list Z) : Z := vsum (map (expo ss vs) (filter (fun z => if in_dec string_dec z syms then true else false) ss)).

Lemma select_expo (p : nat -> bool) (q : string -> bool) : forall (ss : list string) (vs : list Z) off, NoDup ss -> len vs = len ss ->
  (forall i z, nth_error ss i = Some z -> p (off + i)%nat = q z) ->
  map snd (filter (fun e => p (fst e)) (combine (seq off (len vs)) vs)) = map (expo ss vs) (filter q ss).
Proof.
  induction ss as [|z ss IH]; intros [|v vs] off ND L H; try discriminate; [reflexivity|]. inversion ND; subst. cbn [List.length] in L. cbn [seq List.length combine filter fst].
  assert (Eq0 := H 0%nat z eq_refl). rewrite Nat.add_0_r in Eq0. rewrite Eq0.
  assert (R : map snd (filter (fun e : nat * Z => p (fst e)) (combine (seq (S off) (len vs)) vs)) = map (expo (z :: ss) (v :: vs)) (filter q ss)).
  { rewrite (IH vs (S off)); auto.
    - apply map_ext_in. intros y I. apply filter_In in I as [I _]. cbn [expo]. destruct (String.eqb_spec z y); auto. subst. contradiction.
    - intros i y E. rewrite <- (H (S i) y E). f_equal. lia. }
  destruct (q z); cbn [map snd]; rewrite R; auto. cbn [expo]. rewrite String.eqb_refl. reflexivity.
Qed.

Theorem p_degree_exact : forall (s : series) (syms : symbol_set), WF s -> sorted_set syms ->
  (exists m, series_p_degree KO s syms = Ok m /\ is_max (map (fun e => partial_degree syms (s_ss s) (exps s (fst e))) (terms s)) m) \/
  (series_p_degree KO s syms = Throw overflow_error /\
   exists k c, In (k, c) (terms s) /\ ~ ks_deg_fits KS (map (expo (s_ss s) (exps s k)) (filter (fun z => if in_dec string_dec z syms then true else false) (s_ss s)))).
Proof.
  intros s syms W Hy. destruct (ss_intersect_idx_exact syms (s_ss s) Hy (wf_ss _ _ _ _ W)) as [SI BI].
  set (si := ss_intersect_idx syms (s_ss s)) in *.
  assert (SEL : forall k c, In (k, c) (terms s) -> select (fun i => mem i si) (exps s k) = map (expo (s_ss s) (exps s k)) (filter (fun z => if in_dec string_dec z syms then true else false) (s_ss s))).
  { intros k c I. unfold select. apply (select_expo (fun i => mem i si) (fun z => if in_dec string_dec z syms then true else false) (s_ss s) (exps s k) 0%nat); [apply sorted_set_nodup, (wf_ss _ _ _ _ W)|apply (kl_len _ _ KL); eapply wf_valid; eauto|].
    intros i z E. cbn [Nat.add]. apply eq_iff_eq_true. rewrite mem_iff, BI. destruct (in_dec string_dec z syms) as [J|J]; split; intros; auto; try discriminate.
    - exists z; auto.
    - destruct H as (n & E' & J'). assert (n = z) by congruence. subst. contradiction. }
  destruct (max_degree_ok (fun e => k_p_degree KO (fst e) si (s_ss s)) (fun e => vsum (select (fun i => mem i si) (exps s (fst e))))
    (fun e => ks_deg_fits KS (select (fun i => mem i si) (exps s (fst e)))) s) as [(m & E & _ & M)|[E ([k c] & I & N)]].
  - intros e. apply (kl_deg_dec _ _ KL).
  - intros [k c] I G. apply (kl_p_degree _ _ KL); auto. eapply wf_valid; eauto.
  - intros [k c] I G. apply (kl_p_degree _ _ KL); auto. eapply wf_valid; eauto.
  - left. exists m. split; [exact E|]. rewrite (map_ext_in _ (fun e => vsum (select (fun i => mem i si) (exps s (fst e))))); auto.
    intros [k c] I. cbn [fst]. unfold partial_degree. rewrite (SEL k c I). reflexivity.
  - right. split; [exact E|]. exists k, c. split; auto. cbn [fst] in N. rewrite (SEL k c I) in N. exact N.
Qed.

(** C40. Trimming keeps the polynomial and the symbols occurring with nonzero exponent, and is idempotent.  (The number of segments becomes
    1: see [trim_segments_refuted] below.) *)
Theorem trim_exact_partial : forall x : series, WF x ->
  exists r, series_trim KO CO PO TO x = Ok r /\ WF r /\ s_tag r = s_tag x /\
    (forall z, In z (s_ss r) <-> exists i, nth_error (s_ss x) i = Some z /\ occurs KS x i) /\
    (forall us ws, coef us r ws = coef us x ws) /\
    exists r', series_trim KO CO PO TO r = Ok r' /\ s_ss r' = s_ss r /\ s_tag r' = s_tag r /\ forall us ws, coef us r' ws = coef us r ws.
Proof.
  intros x W. destruct (trim_ok KO KS CO PO TO KL CL x W) as (r & E & Wr & Z & T & _ & D & _). exists r.
  split; [exact E|]. split; [exact Wr|]. split; [exact T|]. split; [exact Z|]. split; [intros; rewrite !coef_nden; apply D|].
  destruct (trim_ok KO KS CO PO TO KL CL r Wr) as (r' & E' & Wr' & Z' & T' & _ & D' & _). exists r'. split; [exact E'|].
  split; [|split; [exact T'|intros; rewrite !coef_nden; apply D']].
  apply sorted_ext; try apply wf_ss with (1 := Wr'); try apply wf_ss with (1 := Wr). intros z. rewrite Z'.
  assert (Ix : incl (s_ss r) (s_ss x)). { intros y I. apply Z in I as (i & Ei & _). eapply nth_error_In; eauto. }
  assert (Cx : covers (s_ss x) x) by (split; [apply (wf_ss _ _ _ _ W)|apply incl_refl]).
  assert (Cr : covers (s_ss x) r) by (split; [apply (wf_ss _ _ _ _ W)|exact Ix]).
  rewrite (occurs_coef KO KS CO KL CL (s_ss x) r z Wr Cr). rewrite Z, (occurs_coef KO KS CO KL CL (s_ss x) x z W Cx).
  split; intros (I & ws & N & X); (split; [exact I|]); exists ws; (split; [|exact X]); rewrite coef_nden in *; [rewrite <- D|rewrite D]; exact N.
Qed.

(** C41. *)
Theorem add_symbols_exact : forall (x : series) (ss : symbol_set), WF x -> sorted_set ss -> Z.of_nat (len (s_ss x) + len ss) <= imax size_t ->
  (exists r, add_symbols KO CO PO TO x ss = Ok r /\ WF r /\ union_of (s_ss x) ss (s_ss r) /\ s_tag r = s_tag x /\ s_log2 r = s_log2 x /\
     (forall us ws, coef us r ws = coef us x ws)) \/
  (key_overflow (add_symbols KO CO PO TO x ss) /\
   ((exists u, union_of (s_ss x) ss u /\ unrep KS u x) \/ full (s_log2 x) (series_size x))).
Proof.
  intros x ss W S B. rewrite size_terms. destruct (add_symbols_ok KO KS CO PO TO KL CL x ss W S B) as [(r & E & Wr & U & T & L & D & _)|[E F]].
  - left. exists r. split; [exact E|]. split; [exact Wr|]. split; [split; [apply (wf_ss _ _ _ _ Wr)|exact U]|]. split; [exact T|]. split; [exact L|]. intros. rewrite !coef_nden. apply D.
  - right. split; [exact E|]. destruct F as [(u & Su & U & F)|F]; [left; exists u; split; [split|]; auto|right; exact F].
Qed.

(** C27. Two series that differ only in the segmentation and in the order of the terms. *)
Definition resegmented (x x' : series) : Prop := s_ss x' = s_ss x /\ s_tag x' = s_tag x /\ Permutation (terms x') (terms x).

Lemma reseg_coef x x' us ws : resegmented x x' -> coef us x' ws = coef us x ws.
Proof. intros (E1 & _ & P). unfold SeriesSpec.coef. rewrite E1. apply (psum_perm CO CL). exact P. Qed.

Lemma is_max_unique l l' m m' : Permutation l l' -> is_max l m -> is_max l' m' -> m = m'.
Proof.
  intros P [[E1 ->]|[I1 H1]] [[E2 ->]|[I2 H2]]; auto.
  - subst l. apply Permutation_nil in P. subst. contradiction.
  - subst l'. apply Permutation_sym, Permutation_nil in P. subst. contradiction.
  - assert (In m l') by (eapply Permutation_in; eauto). assert (In m' l) by (eapply Permutation_in; [apply Permutation_sym; eauto|auto]).
    apply H1 in H0. apply H2 in H. lia.
Qed.

Theorem segmentation_unobservable : forall (x x' y y' : series), WF x -> WF x' -> WF y -> WF y' -> resegmented x x' -> resegmented y y' ->
  Z.of_nat (len (s_ss x) + len (s_ss y)) <= imax size_t ->
  (* find *)
  (forall k c, (exists it, series_find KO x k = Ok it /\ it_deref x it = Ok (k, c)) <-> (exists it, series_find KO x' k = Ok it /\ it_deref x' it = Ok (k, c))) /\
  (* size, degree *)
  series_size x = series_size x' /\ series_degree KO x = series_degree KO x' /\
  (* sum and difference: same polynomial over the same symbols; same success unless a segment is full *)
  (forall sign : bool, let op p q := if sign then series_add KO CO PO TO p q else series_sub KO CO PO TO p q in
     (forall r r', op x y = Ok r -> op x' y' = Ok r' -> s_ss r = s_ss r' /\ forall us ws, coef us r ws = coef us r' ws) /\
     (forall r, op x y = Ok r -> (exists r', op x' y' = Ok r') \/ full (s_log2 x') (series_size x + series_size y) \/ full (s_log2 y') (series_size x + series_size y))) /\
  (* equality *)
  (forall b b', series_equal_to KO CO PO TO x y = Ok b -> series_equal_to KO CO PO TO x' y' = Ok b' -> b = b') /\
  (forall b, series_equal_to KO CO PO TO x y = Ok b -> series_equal_to KO CO PO TO x' y' = Ok b \/ full (s_log2 x') (series_size x) \/ full (s_log2 y') (series_size y)).
Proof.
  intros x x' y y' Wx Wx' Wy Wy' Rx Ry B. pose proof Rx as (Ex & Tx & Px). pose proof Ry as (Ey & Ty & Py).
  assert (B' : Z.of_nat (len (s_ss x') + len (s_ss y')) <= imax size_t) by (rewrite Ex, Ey; exact B).
  assert (SX : series_size x' = series_size x) by (rewrite !size_terms; apply Permutation_length; exact Px).
  assert (SY : series_size y' = series_size y) by (rewrite !size_terms; apply Permutation_length; exact Py).
  assert (FI : forall (p q : series), WF p -> WF q -> Permutation (terms p) (terms q) -> forall k c,
    (exists it, series_find KO p k = Ok it /\ it_deref p it = Ok (k, c)) -> exists it, series_find KO q k = Ok it /\ it_deref q it = Ok (k, c)).
  { intros p q Wp Wq P k c (it & E & D). destruct (find_ok KO KS CO KL p k Wp) as [(it' & d & E' & N & D' & J)|[E' N]].
    - assert (it' = it) by congruence. subst. assert (d = c) by congruence. subst.
      destruct (find_ok KO KS CO KL q k Wq) as [(it2 & d2 & E2 & N2 & D2 & J2)|[E2 N2]].
      + exists it2. split; [exact E2|]. rewrite D2. repeat f_equal. assert (J' := Permutation_in _ P J).
        apply (lookup_ok KO KS CO KL CL) in J'; [|apply (wf_keys _ _ _ _ Wq)]. apply (lookup_ok KO KS CO KL CL) in J2; [|apply (wf_keys _ _ _ _ Wq)]. congruence.
      + exfalso. apply N2. apply in_map_iff. exists (k, c). split; auto. eapply Permutation_in; eauto.
    - exfalso. assert (it = series_end p) by congruence. subst. unfold it_deref, series_end in D. cbn [fst snd] in D. unfold rd in D.
      destruct (nth_error _ _) eqn:NE; [|discriminate]. cbn in D. discriminate. }
  split; [intros k c; split; apply FI; auto using Permutation_sym|]. split; [auto|]. split; [|split].
  - assert (PD : Permutation (map (fun e => vsum (exps x (fst e))) (terms x)) (map (fun e => vsum (exps x' (fst e))) (terms x'))).
    { rewrite Ex. apply Permutation_map, Permutation_sym, Px. }
    assert (SYM : forall (p q : series), WF p -> WF q -> s_ss p = s_ss q -> Permutation (terms p) (terms q) -> series_degree KO p = Throw overflow_error -> series_degree KO q = Throw overflow_error).
    { intros p q Wp Wq S P E.
      assert (exists k c, In (k, c) (terms q) /\ ~ ks_deg_fits KS (exps q k)) as (k & c & I & N).
      { destruct (degree_exact p Wp) as [(m & E' & _)|[_ (k & c & I & N)]]; [congruence|]. exists k, c. rewrite <- S. split; auto. eapply Permutation_in; eauto. }
      destruct (max_degree_ok (fun e => k_degree KO (fst e) (s_ss q)) (fun e => vsum (exps q (fst e))) (fun e => ks_deg_fits KS (exps q (fst e))) q) as [(m & _ & A & _)|[E' _]].
      - intros e. apply (kl_deg_dec _ _ KL).
      - intros [k' c'] I' G. apply (kl_degree _ _ KL); auto. eapply wf_valid; eauto.
      - intros [k' c'] I' G. apply (kl_degree _ _ KL); auto. eapply wf_valid; eauto.
      - exfalso. apply N. apply (A (k, c) I).
      - exact E'. }
    destruct (degree_exact x Wx) as [(m & E & M)|[E _]], (degree_exact x' Wx') as [(m' & E' & M')|[E' _]].
    + rewrite E, E'. f_equal. eapply is_max_unique; eauto.
    + exfalso. assert (Q := SYM x' x Wx' Wx Ex Px E'). congruence.
    + exfalso. assert (Q := SYM x x' Wx Wx' (eq_sym Ex) (Permutation_sym Px) E). congruence.
    + congruence.
  - intros sign op. assert (A := add_sub_exact sign x y Wx Wy B). assert (A' := add_sub_exact sign x' y' Wx' Wy' B'). cbv zeta in A, A'. fold (op x y) in A. fold (op x' y') in A'. split.
    + intros r r' E E'. rewrite E in A. rewrite E' in A'.
      destruct A as [(? & [= <-] & _ & U & _ & _ & D)|[[?|?] _]]; try discriminate. destruct A' as [(? & [= <-] & _ & U' & _ & _ & D')|[[?|?] _]]; try discriminate.
      split.
      * destruct U as [S1 U], U' as [S2 U']. apply sorted_ext; auto. intros z. rewrite U, U', Ex, Ey. tauto.
      * intros us ws. rewrite D, D', !(reseg_coef x x' us ws Rx), !(reseg_coef y y' us ws Ry). reflexivity.
    + intros r E. rewrite E in A. destruct A as [(? & [= <-] & _ & U & NX & NY & D)|[[?|?] _]]; try discriminate.
      destruct A' as [(r' & E' & _)|[_ [(u & U' & UN)|FL]]]; [left; eauto| |right; rewrite SX, SY in FL; exact FL].
      exfalso. rewrite Ex, Ey in U'. assert (u = s_ss r) as ->.
      { destruct U as [S1 U], U' as [S2 U']. apply sorted_ext; auto. intros z. rewrite U, U'. tauto. }
      destruct UN as [(k & c & I & N)|(k & c & I & N)]; [apply NX|apply NY]; exists k, c; [rewrite Ex in N|rewrite Ey in N]; split; auto; eapply Permutation_in; eauto.
  - assert (AG : forall b b', series_equal_to KO CO PO TO x y = Ok b -> series_equal_to KO CO PO TO x' y' = Ok b' -> b = b').
    { intros b b' E E'.
      destruct (equal_ok KO KS CO PO TO KL CL x y Wx Wy B) as [(b1 & E1 & I1)|[[?|?] _]]; try congruence.
      destruct (equal_ok KO KS CO PO TO KL CL x' y' Wx' Wy' B') as [(b2 & E2 & I2)|[[?|?] _]]; try congruence.
      assert (b1 = b) by congruence. assert (b2 = b') by congruence. subst. apply eq_iff_eq_true. rewrite I1, I2, Tx, Ty.
      split; intros [T H]; (split; [exact T|]); intros us ws; specialize (H us ws); rewrite !(reseg_coef x x' us ws Rx), !(reseg_coef y y' us ws Ry) in *; exact H. }
    split; [exact AG|]. intros b E.
    destruct (equality_exact x' y' Wx' Wy' B') as [(b' & E' & _)|[_ [(u & U & UN)|FL]]]; [left; rewrite E'; f_equal; symmetry; apply AG; auto| |right; rewrite SX, SY in FL; exact FL].
    exfalso. rewrite Ex, Ey in U. refine (equal_unrep KO KS CO KL CL PO TO x y u Wx Wy B U _ b E).
    destruct UN as [(k & c & I & N)|(k & c & I & N)]; [left|right]; exists k, c; [rewrite Ex in N|rewrite Ey in N]; split; auto; eapply Permutation_in; eauto.
Qed.
End PS.

Print Assumptions add_term_exact.
Print Assumptions add_term_rejects.
Print Assumptions iteration_exact.
Print Assumptions iterator_equality.
Print Assumptions add_sub_exact.
Print Assumptions add_commutative.
Print Assumptions in_place_exact.
Print Assumptions equality_exact.
Print Assumptions equality_equivalence.
Print Assumptions negate_exact.
Print Assumptions scalar_mul_exact.
Print Assumptions scalar_div_exact.
Print Assumptions scalar_addsub_exact.
Print Assumptions of_coefficient_exact.
Print Assumptions to_coefficient_exact.
Print Assumptions convert_exact.
Print Assumptions filter_exact.
Print Assumptions degree_exact.
Print Assumptions p_degree_exact.
Print Assumptions trim_exact_partial.
Print Assumptions add_symbols_exact.
Print Assumptions segmentation_unobservable.
