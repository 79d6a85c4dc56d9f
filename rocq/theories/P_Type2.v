(** C94: the types of degrees, truncations, powers, evaluations, substitutions, derivatives and integrals. *)
From Coq Require Import ZArith List Bool Lia Arith.
From Verif Require Import TypeModel TypeSpec TypeModel2 TypeSpec2 P_Type.
Import ListNotations.

Section T.
Context {B K G : Type} (M : tbl B K G) (D : tbl2 B K).
Notation ty := (ty B K G).
Hypothesis SO : same_ok M.

Lemma from_int_leaf (x : ty) : from_int M x = t_int M (leaf x).
Proof. induction x; cbn; auto. Qed.
Lemma ctor_refl (x : ty) : ctor M x x = true.
Proof. destruct x as [b|k c t]; [apply SO|]. rewrite ctor_eq. assert (E : ty_eqb M (TS k c t) (TS k c t) = true) by (apply ty_eqb_iff; auto). rewrite E. reflexivity. Qed.

(** C94. The degree exists if a key or the innermost coefficients have one; its type is the common type of the degrees of all levels. *)
Theorem degree_types : forall j, (forall a b, t_add M a b = Some (j a b)) -> (forall d, d_dreq D d = true) ->
  forall x : ty, degree_ty M D x = common j (degrees D x).
Proof.
  intros j A R x. unfold degrees, keys. induction x as [b|k c IH t]; cbn [degree_ty levels map flat_map leaf app fst].
  - destruct (d_deg D b); reflexivity.
  - rewrite IH, <- app_assoc. set (l := flat_map _ _ ++ _). destruct (d_kdeg D k) as [dk|]; cbn [to_list app common].
    + destruct (common j l) as [dc|]; [rewrite A, R; reflexivity|rewrite R; reflexivity].
    + destruct (common j l) as [dc|]; [rewrite R; reflexivity|reflexivity].
Qed.
Lemma common_none j (l : list B) : common j l = None <-> l = [].
Proof. destruct l; cbn; split; congruence. Qed.

(** C94. Truncation exists for the polynomials whose monomials have a degree comparable with the bound, if no level below and no coefficient has a degree. *)
Theorem truncation_types : forall j, (forall a b, t_add M a b = Some (j a b)) -> (forall d, d_dreq D d = true) -> forall (x : ty) u,
  truncatable M D x u = true <-> exists k t d, hd_error (levels x) = Some (k, t) /\ t_poly M t = true /\ d_kdeg D k = Some d /\ degrees D x = [d] /\ d_less D u d = true.
Proof.
  intros j A R x u. unfold truncatable. destruct x as [b|k c t].
  - cbn. split; [discriminate|]. intros (k & t & d & H & _). discriminate.
  - cbn [is_poly levels hd_error degree_algo]. pose proof (degree_types j A R c) as Hc. pose proof (degree_types j A R (TS k c t)) as Hx.
    assert (DX : degrees D (TS k c t) = to_list (d_kdeg D k) ++ degrees D c) by (unfold degrees, keys; cbn; rewrite <- app_assoc; reflexivity).
    rewrite Hx, Hc, DX. destruct (t_poly M t) eqn:P; cbn [andb].
    + destruct (d_kdeg D k) as [dk|] eqn:Ek; cbn [to_list app common].
      * destruct (degrees D c) as [|d l] eqn:Ec; cbn [common].
        -- cbn [Nat.eqb]. split.
           ++ intros L. exists k, t, dk. repeat split; auto.
           ++ intros (k' & t' & d & H & _ & _ & H2 & L). assert (d = dk) by congruence. subst d. exact L.
        -- cbn [Nat.eqb]. split; [discriminate|]. intros (k' & t' & d' & _ & _ & _ & H2 & _). discriminate.
      * destruct (degrees D c) as [|d l]; cbn [common Nat.eqb]; (split; [discriminate|]); intros (k' & t' & d' & H & _ & H2 & _); assert (k' = k) by congruence; subst k'; congruence.
    + split; [discriminate|]. intros (k' & t' & d' & H & H2 & _). congruence.
Qed.
(** C94. So polynomials over polynomials cannot be truncated: all monomials of the library have a degree. *)
Theorem nested_not_truncatable : forall j, (forall a b, t_add M a b = Some (j a b)) -> (forall d, d_dreq D d = true) -> (forall k, d_kdeg D k <> None) ->
  forall (x : ty) u, truncatable M D x u = true -> rank x = 1.
Proof.
  intros j A R KD x u T. apply (truncation_types j A R) in T as (k & t & d & H & _ & _ & DX & _). unfold degrees, keys in DX.
  rewrite rank_levels. destruct (levels x) as [|[k1 t1] [|[k2 t2] l]]; [discriminate|reflexivity|]. cbn in DX. pose proof (KD k1). pose proof (KD k2). destruct (d_kdeg D k1); [|congruence]. destruct (d_kdeg D k2); [|congruence]. discriminate.
Qed.

(** C94. Powers: the levels stay, the innermost coefficients get the type of their power. *)
Theorem power_types : (forall a e c, d_pow D a e = Some c -> t_cf M c = true /\ t_int M c = true) -> forall (x r : ty) e, good M x -> t_int M (leaf x) = true -> t_zt M e = true ->
  pow_ty M D x e = Some r <-> exists c, d_pow D (leaf x) e = Some c /\ r = build (levels x) c.
Proof.
  intros PW x r e. revert r. induction x as [b|k c IH t]; intros r Gx I Z; cbn [pow_ty levels leaf].
  - destruct (d_pow D b e) as [p|]; cbn; split.
    + intros E. exists p. split; congruence.
    + intros (q & E & ->). cbn. congruence.
    + discriminate.
    + intros (q & E & _). discriminate.
  - destruct Gx as (C1 & C2 & Gc). specialize (fun r => IH r Gc I Z). rewrite !from_int_leaf, Z. cbn [leaf] in I. rewrite I.
    destruct (pow_ty M D c e) as [rc|] eqn:E.
    + destruct (proj1 (IH rc) eq_refl) as (p & Ep & ->). destruct (PW _ _ _ Ep) as (F1 & F2). rewrite from_int_leaf, leaf_build, F2, (good_build M _ p c Gc eq_refl F1). cbn [andb]. split.
      * intros H. exists p. split; [exact Ep|]. change (build ((k, t) :: levels c) p) with (TS k (build (levels c) p) t). congruence.
      * intros (q & E2 & ->). change (build ((k, t) :: levels c) q) with (TS k (build (levels c) q) t). congruence.
    + split; [discriminate|]. intros (p & Ep & _). assert (X : (None : option ty) = Some (build (levels c) p)) by (apply IH; eauto). discriminate.
Qed.

Lemma degrees_cons k c (t : G) : degrees D (TS k c t) = to_list (d_kdeg D k) ++ degrees D (c : ty).
Proof. unfold degrees, keys. cbn. rewrite <- app_assoc. reflexivity. Qed.
Lemma algo3 j : (forall a b, t_add M a b = Some (j a b)) -> (forall d, d_dreq D d = true) -> forall k c (t : G),
  degree_algo M D (TS k c t) = 3 <-> exists d, d_kdeg D k = Some d /\ degrees D (TS k c t) = [d].
Proof.
  intros A R k c t. cbn [degree_algo]. rewrite (degree_types j A R (TS k c t)), (degree_types j A R c), degrees_cons. destruct (d_kdeg D k) as [dk|] eqn:Ek; cbn [to_list app common].
  - destruct (degrees D c) as [|d l]; cbn [common].
    + split; [intros _; exists dk; auto|reflexivity].
    + split; [discriminate|]. intros (d' & _ & E). discriminate.
  - destruct (degrees D c) as [|d l]; cbn [common]; (split; [discriminate|]); intros (d' & E & _); discriminate.
Qed.
(** C94. Truncated products exist for the polynomials of the same levels that can be multiplied and have degrees at the first level only. *)
Theorem truncated_product_types : forall j, (forall a b, t_add M a b = Some (j a b)) -> (forall d, d_dreq D d = true) -> promotes M (t_mul M) -> absorbs M (t_mul M) (t_imul M) -> one_poly M ->
  forall (x y : ty) u, good M x -> good M y ->
  truncated_mul_ok M D x y u = true <->
  levels x = levels y /\ polys M (levels x) /\ t_mul M (leaf x) (leaf y) <> None /\
  exists k t d, hd_error (levels x) = Some (k, t) /\ d_kdeg D k = Some d /\ degrees D x = [d] /\ degrees D y = [d] /\ d_less D u (j d d) = true.
Proof.
  intros j A R PR AB PU x y u Gx Gy. destruct x as [b|k c t].
  { cbn. split; [discriminate|]. intros (_ & _ & _ & k & t & d & E & _). discriminate. }
  destruct y as [b|k' c' t'].
  { cbn. split; [discriminate|]. intros (E & _). discriminate. }
  set (x := TS k c t) in *. set (y := TS k' c' t') in *.
  assert (EQ : truncated_mul_ok M D x y u = t_keq M k k' && t_geq M t t' && is_poly M x && (rank x =? rank y) && match mul M x y with None => false | Some _ => if (degree_algo M D x =? 3) && (degree_algo M D y =? 3) then match degree_ty M D x, degree_ty M D y with Some d1, Some d2 => match t_add M d1 d2 with Some d => d_less D u d | None => false end | _, _ => false end else false end) by reflexivity.
  rewrite EQ. split.
  - intros H. apply andb_prop in H as [H H5]. apply andb_prop in H as [H H4]. apply andb_prop in H as [H H3]. apply andb_prop in H as [H1 H2].
    apply (so_k M SO) in H1. apply (so_g M SO) in H2. apply Nat.eqb_eq in H4. destruct (mul M x y) as [r|] eqn:E; [|discriminate].
    apply (product_types M SO PR AB PU) in E as (N & P & cc & Ec & _); auto. rewrite (rank_levels x), (rank_levels y) in H4.
    assert (LL : levels x = levels y) by (apply nested_same; auto). rewrite shorter_ge in P by lia. rewrite <- LL in P.
    destruct (Nat.eqb_spec (degree_algo M D x) 3) as [X3|]; [|discriminate]. destruct (Nat.eqb_spec (degree_algo M D y) 3) as [Y3|]; [|discriminate].
    apply (algo3 j A R) in X3 as (d & Ed & DX). apply (algo3 j A R) in Y3 as (d' & Ed' & DY). fold x in DX. fold y in DY.
    rewrite (degree_types j A R x), (degree_types j A R y), DX, DY in H5. cbn [andb common] in H5. rewrite A in H5. assert (d' = d) by congruence. subst d'.
    split; [exact LL|]. split; [exact P|]. split; [congruence|]. exists k, t, d. auto.
  - intros (LL & P & MM & k1 & t1 & d & E1 & Ed & DX & DY & L). assert (k1 = k /\ t1 = t) as [-> ->] by (split; cbn in E1; congruence).
    assert (k' = k /\ t' = t) as [-> ->] by (split; cbn in LL; congruence).
    rewrite (proj2 (so_k M SO k k) eq_refl), (proj2 (so_g M SO t t) eq_refl). assert (PX : is_poly M x = true) by (apply (P k t); left; reflexivity). rewrite PX.
    rewrite !rank_levels, LL, Nat.eqb_refl. cbn [andb]. destruct (t_mul M (leaf x) (leaf y)) as [cc|] eqn:Ec; [|congruence].
    assert (E : mul M x y = Some (build (longer (levels x) (levels y)) cc)).
    { apply (product_types M SO PR AB PU); auto. split; [left; rewrite LL; apply inner_refl|]. split; [rewrite shorter_ge by (rewrite LL; lia); rewrite <- LL; exact P|]. eauto. }
    rewrite E. assert (X3 : degree_algo M D x = 3) by (apply (algo3 j A R); eauto). assert (Y3 : degree_algo M D y = 3) by (apply (algo3 j A R); eauto). rewrite X3, Y3. rewrite (degree_types j A R x), (degree_types j A R y), DX, DY. cbn [andb common Nat.eqb]. rewrite A. exact L.
Qed.

(** C94. Powers of non-constant series are computed when all levels are polynomials, the product of two innermost coefficients and their power have their type and they
    are comparable, and the exponent converts to unsigned; in all other cases pow() throws for them. *)
Theorem power_repeats_types : (forall a e c, d_pow D a e = Some c -> t_cf M c = true /\ t_int M c = true) -> promotes M (t_mul M) -> absorbs M (t_mul M) (t_imul M) -> one_poly M ->
  (forall a b, t_eqc M a b = t_eqc M b a) -> (forall b, t_zt M b = true) ->
  forall (x : ty) e, good M x -> t_int M (leaf x) = true -> rank x <> 0 ->
  pow_repeats M D x e = true <-> polys M (levels x) /\ t_mul M (leaf x) (leaf x) = Some (leaf x) /\ d_pow D (leaf x) e = Some (leaf x) /\ t_eqc M (leaf x) (leaf x) = true /\ d_conv D e = true.
Proof.
  intros PW PR AB PU SY ZT x e Gx I RK. pose proof (ZT e) as Z. destruct x as [b|k c t]; [cbn in RK; congruence|]. set (x := TS k c t) in *.
  assert (EQ : pow_repeats M D x e = d_conv D e && match mul M x x, pow_ty M D x e with Some m, Some r => ty_eqb M x m && ty_eqb M x r | _, _ => false end && eqc M c c) by reflexivity.
  rewrite EQ. split.
  - intros H. apply andb_prop in H as [H H3]. apply andb_prop in H as [H1 H2].
    destruct (mul M x x) as [m|] eqn:Em; [|discriminate]. destruct (pow_ty M D x e) as [r|] eqn:Er; [|discriminate]. apply andb_prop in H2 as [H2 H4].
    apply (ty_eqb_iff M SO) in H2. apply (ty_eqb_iff M SO) in H4. subst m r.
    apply (product_types M SO PR AB PU) in Em as (_ & P & cc & Ec & E); auto. apply (power_types PW) in Er as (p & Ep & E2); auto.
    apply (comparable_types M SO SY ZT) in H3 as [_ Q]; try apply Gx.
    rewrite shorter_ge in P by lia. rewrite longer_ge in E by lia. assert (cc = leaf x) by (rewrite E, leaf_build; reflexivity). assert (p = leaf x) by (rewrite E2, leaf_build; reflexivity). subst cc p. auto.
  - intros (P & Ec & Ep & Q & Cv). rewrite Cv.
    assert (Em : mul M x x = Some x).
    { apply (product_types M SO PR AB PU); auto. split; [left; apply inner_refl|]. split; [rewrite shorter_ge by lia; exact P|]. exists (leaf x). split; [exact Ec|]. rewrite longer_ge by lia. symmetry. apply build_leaf. }
    assert (Er : pow_ty M D x e = Some x) by (apply (power_types PW); auto; exists (leaf x); split; [exact Ep|symmetry; apply build_leaf]).
    assert (EE : ty_eqb M x x = true) by (apply ty_eqb_iff; auto). rewrite Em, Er, EE. cbn [andb]. apply (comparable_types M SO SY ZT); try apply Gx. split; [left; apply inner_refl|exact Q].
Qed.

(** ** Numbers *)
Section N.
Context (j : B -> B -> B).
Hypothesis NU : numbers M D j.
Hypothesis PU : one_poly M.
Lemma nu_promotes op : (forall a b, op a b = Some (j a b)) -> promotes M op.
Proof. intros E a b c _. split; [apply (nu_cf M D j NU)|]. split; apply (nu_ctor M D j NU). Qed.
Lemma nu_left a b : j (j a b) a = j a b.
Proof. rewrite (nu_comm M D j NU (j a b) a), (nu_assoc M D j NU), (nu_idem M D j NU). reflexivity. Qed.
Lemma nu_right a b : j (j a b) b = j a b.
Proof. rewrite <- (nu_assoc M D j NU), (nu_idem M D j NU). reflexivity. Qed.
Lemma nu_absorbs : absorbs M (t_mul M) (t_imul M).
Proof.
  intros a b c E. rewrite (nu_mul M D j NU) in E. assert (c = j a b) by congruence. subst c. rewrite !(nu_mul M D j NU), nu_left, nu_right.
  repeat split; try apply (nu_imul M D j NU); apply (nu_zt M D j NU).
Qed.
Lemma nu_absorbs_right : absorbs_right (t_div M) (t_idiv M).
Proof.
  intros a b c E. rewrite (nu_div M D j NU) in E. assert (c = j a b) by congruence. subst c. rewrite (nu_div M D j NU), nu_right. split; [reflexivity|]. apply (nu_idiv M D j NU).
Qed.
Lemma mul_ty (x y : ty) : good M x -> good M y -> nested (levels x) (levels y) -> polys M (shorter (levels x) (levels y)) -> mul M x y = Some (build (longer (levels x) (levels y)) (j (leaf x) (leaf y))).
Proof.
  intros Gx Gy N P. apply (product_types M SO (nu_promotes _ (nu_mul M D j NU)) nu_absorbs PU); auto. split; [exact N|]. split; [exact P|]. eexists. split; [apply (nu_mul M D j NU)|reflexivity].
Qed.
Lemma add_ty (x y : ty) : good M x -> good M y -> nested (levels x) (levels y) -> addsub M (t_add M) x y = Some (build (longer (levels x) (levels y)) (j (leaf x) (leaf y))).
Proof.
  intros Gx Gy N. apply (sum_types M SO (t_add M) (nu_promotes _ (nu_add M D j NU))); auto. split; [exact N|]. eexists. split; [apply (nu_add M D j NU)|reflexivity].
Qed.
Lemma good_lev (x : ty) c : good M x -> good M (build (levels x) c).
Proof. intros Gx. apply good_over; auto. apply (nu_cf M D j NU). Qed.
Lemma good_longer (x y : ty) c : good M x -> good M y -> good M (build (longer (levels x) (levels y)) c).
Proof. intros Gx Gy. destruct (longer_or (levels x) (levels y)) as [-> | ->]; apply good_lev; auto. Qed.
Lemma fi (x : ty) : from_int M x = true.
Proof. rewrite from_int_leaf. apply (nu_int M D j NU). Qed.
Lemma ret (x : ty) : returnable D x = true.
Proof. destruct x; [apply (nu_req M D j NU)|reflexivity]. Qed.
Lemma iadd_same l a b (x : ty) : good M x -> levels x = l -> iadd M D (build l a) (build l b) = true.
Proof.
  intros Gx <-. destruct x as [c|k c t]; [apply (nu_iadd M D j NU)|]. set (y := TS k c t) in *. pose proof (good_lev y a Gx) as Ga. pose proof (good_lev y b Gx) as Gb.
  assert (H : in_place_algo M (t_add M) (build (levels y) a) (build (levels y) b) <> 0).
  { apply (in_place_types M SO (t_add M)); auto; [apply nu_promotes; apply (nu_add M D j NU)|rewrite rank_build; cbn; lia|]. right. right.
    rewrite !rank_build, !keys_build, !levels_build, !leaf_build. repeat split. apply (nu_ctor M D j NU). }
  unfold iadd. destruct (build (levels y) a) as [|k1 c1 t1] eqn:E1; [discriminate E1|]. apply negb_true_iff, Nat.eqb_neq. exact H.
Qed.
Lemma imul_same (x : ty) c : good M x -> polys M (levels x) -> TypeModel2.imul M (build (levels x) c) (build (levels x) c) = true.
Proof.
  intros Gx P. unfold TypeModel2.imul. set (r := build (levels x) c). assert (Gr : good M r) by (apply good_lev; auto). assert (L : levels r = levels x) by apply levels_build.
  assert (E : mul M r r = Some r).
  { rewrite mul_ty; auto; [|left; apply inner_refl|rewrite shorter_ge, L by lia; exact P]. rewrite longer_ge by lia. rewrite (nu_idem M D j NU). f_equal. apply build_leaf. }
  destruct r as [b|k c' t]; [apply (nu_imul M D j NU)|]. rewrite E. apply ctor_refl.
Qed.
(** The values [u] and the keys [ks]: monomials with exponents of some type, to which the innermost numbers of [u] can be raised, giving type [p k]. *)
Definition powers (p : K -> B) (u : ty) (ks : list K) : Prop := forall k, In k ks -> exists e, d_kexp D k = Some e /\ d_pow D (leaf u) e = Some (p k).
Lemma key_eval_ty p (u : ty) k : good M u -> polys M (levels u) -> powers p u [k] -> key_eval M D k u = Some (build (levels u) (p k)).
Proof.
  intros Gu Pu PP. destruct (PP k (or_introl eq_refl)) as (e & Ee & Ep). unfold key_eval. rewrite Ee.
  assert (E : pow_ty M D u e = Some (build (levels u) (p k))).
  { apply power_types; [intros; split; [apply (nu_cf M D j NU)|apply (nu_int M D j NU)]|exact Gu|apply (nu_int M D j NU)|apply (nu_zt M D j NU)|]. eauto. }
  rewrite E, fi, imul_same, ret by auto. reflexivity.
Qed.
Lemma keys_cons k (c : ty) t : keys (TS k c t) = k :: keys c. Proof. reflexivity. Qed.

(** C94. Evaluation at values of type [u] (numbers or polynomials): the levels of [u], over the common type of the innermost coefficients of [x] and of the powers of the
    innermost numbers of [u]. *)
Theorem evaluation_types : forall p (x u : ty), good M x -> good M u -> polys M (levels u) -> powers p u (keys x) -> rank x <> 0 ->
  evaluate_ty M D u x = build (levels u) (joined j p (keys x) (leaf x)).
Proof.
  intros p x u Gx Gu Pu. induction x as [b|k c IH t]; intros PP R; [cbn in R; congruence|]. clear R. destruct Gx as (C1 & C2 & Gc).
  cbn [evaluate_ty]. rewrite (key_eval_ty p u k) by (auto; intros k' [<-|[]]; apply PP; left; reflexivity).
  assert (X : mul M (build (levels u) (p k)) (evaluate_ty M D u c) = Some (build (levels u) (joined j p (k :: keys c) (leaf c)))).
  { destruct c as [b|k' c' t'].
    - cbn [evaluate_ty]. rewrite mul_ty; [|apply good_lev; auto|exact I|right; exists (levels (build (levels u) (p k) : ty)); rewrite app_nil_r; reflexivity|rewrite shorter_ge by (cbn; lia); intros ? ? []].
      rewrite longer_ge by (cbn; lia). rewrite levels_build, leaf_build. reflexivity.
    - rewrite (IH Gc (fun k1 J => PP k1 (or_intror J))) by discriminate.
      rewrite mul_ty; [|apply good_lev; auto|apply good_lev; auto|rewrite !levels_build; left; apply inner_refl|rewrite !levels_build, shorter_ge by lia; exact Pu].
      rewrite !levels_build, longer_ge by lia. rewrite !leaf_build. reflexivity. }
  rewrite X, (iadd_same _ _ _ u Gu eq_refl), fi, ret. reflexivity.
Qed.
(** C94. If the values cannot be raised to the exponents of the outermost monomials, evaluate() and subs() compile and return their argument. *)
Theorem evaluation_unchanged : forall (x u : ty) k t e, hd_error (levels x) = Some (k, t) -> d_kexp D k = Some e -> pow_ty M D u e = None ->
  evaluate_ty M D u x = x /\ subs_ty M D u x = x.
Proof.
  intros x u k t e H E P. destruct x as [b|k' c t']; [discriminate|]. cbn in H. assert (k' = k) by congruence. subst k'.
  assert (KE : key_eval M D k u = None) by (unfold key_eval; rewrite E, P; reflexivity). cbn [evaluate_ty subs_ty]. rewrite KE. destruct (t_poly M t'); auto.
Qed.

Lemma joined_leaf (p : K -> B) l b : j (joined j p l b) b = joined j p l b.
Proof. induction l as [|k l IH]; cbn; [apply (nu_idem M D j NU)|]. rewrite <- (nu_assoc M D j NU). change (fold_right _ b l) with (joined j p l b). rewrite IH. reflexivity. Qed.
Lemma longer3 {A} (u c : list A) e : nested u (e :: c) -> nested u c /\ nested u (longer u c) /\ nested (longer u c) (e :: c) /\ longer u (longer u c) = longer u c /\ longer (longer u c) (e :: c) = longer u (e :: c).
Proof.
  intros N. destruct (Nat.le_gt_cases (length u) (length c)) as [L|L].
  - pose proof (proj1 (nested_cons u c e L) N) as N'. rewrite (longer_le u c) by auto. split; [exact N'|]. split; [exact N'|]. split; [left; exists [e]; reflexivity|]. split; [apply longer_le; auto|].
    rewrite (longer_le u (e :: c)) by (auto; cbn; lia). apply longer_le; [left; exists [e]; reflexivity|cbn; lia].
  - assert (N' : inner_part (e :: c) u).
    { destruct N as [N|N]; [|exact N]. pose proof (inner_len _ _ N) as H. cbn in H. exists []. cbn. destruct N as [pre Hp]. destruct pre; [auto|]. apply (f_equal (@length A)) in Hp. cbn in Hp. rewrite app_length in Hp. lia. }
    assert (N2 : inner_part c u) by (eapply inner_trans; [exists [e]; reflexivity|exact N']).
    rewrite (longer_ge u c) by lia. split; [right; exact N2|]. split; [left; apply inner_refl|]. split; [right; exact N'|]. split; [apply longer_ge; lia|reflexivity].
Qed.
Lemma polys_shorter (a b : list (K * G)) : polys M a -> polys M b -> polys M (shorter a b).
Proof. intros P Q. unfold shorter. destruct (_ <? _); auto. Qed.
Lemma polys_longer (a b : list (K * G)) : polys M a -> polys M b -> polys M (longer a b).
Proof. intros P Q. unfold longer. destruct (_ <? _); auto. Qed.

(** C94. Substitution of values of type [u] in a polynomial: the levels of the operand of higher rank over the common type. *)
Theorem substitution_types : forall p (x u : ty), good M x -> good M u -> polys M (levels u) -> polys M (levels x) -> nested (levels u) (levels x) -> powers p u (keys x) -> rank x <> 0 ->
  subs_ty M D u x = build (longer (levels u) (levels x)) (joined j p (keys x) (leaf x)).
Proof.
  intros p x u Gx Gu Pu. induction x as [b|k c IH t]; intros Px N PP R; [cbn in R; congruence|]. clear R. destruct Gx as (C1 & C2 & Gc). set (x := TS k c t) in *.
  assert (Gx : good M x) by (cbn; auto). change (nested (levels u) ((k, t) :: levels c)) in N. destruct (longer3 _ _ _ N) as (N1 & N2 & N3 & L1 & L2).
  assert (Pc : polys M (levels c)) by (intros k1 t1 J; apply Px; right; exact J).
  change (subs_ty M D u x) with (if t_poly M t then match key_eval M D k u with Some ke => match mul M ke (subs_ty M D u c) with Some q => match mul M q x with Some r => if iadd M D r r && from_int M c then r else x | None => x end | None => x end | None => x end else x).
  rewrite (proj2 (Px k t (or_introl eq_refl))), (key_eval_ty p u k) by (auto; intros k' [<-|[]]; apply PP; left; reflexivity).
  assert (X : mul M (build (levels u) (p k)) (subs_ty M D u c) = Some (build (longer (levels u) (levels c)) (j (p k) (joined j p (keys c) (leaf c))))).
  { assert (Y : exists l, subs_ty M D u c = build l (joined j p (keys c) (leaf c)) /\ (l = longer (levels u) (levels c) \/ l = [] /\ levels c = [])).
    { destruct c as [b|k' c' t']; [exists []; cbn; auto|]. exists (longer (levels u) (levels (TS k' c' t'))). split; [|auto]. apply IH; auto; [intros k1 J; apply PP; right; exact J|discriminate]. }
    destruct Y as (l & -> & [-> | [-> Lc]]).
    - rewrite mul_ty; [|apply good_lev; auto|apply good_longer; auto|rewrite !levels_build; exact N2|rewrite !levels_build; apply polys_shorter; auto; apply polys_longer; auto].
      rewrite !levels_build, !leaf_build, L1. reflexivity.
    - rewrite mul_ty; [|apply good_lev; auto|exact I|rewrite !levels_build; right; exists (levels u); rewrite app_nil_r; reflexivity|rewrite !levels_build; rewrite shorter_ge by (cbn; lia); intros ? ? []].
      rewrite !levels_build, !leaf_build, Lc. reflexivity. }
  rewrite X. assert (Gp : good M (build (longer (levels u) (levels c)) (j (p k) (joined j p (keys c) (leaf c))))) by (apply good_longer; auto).
  rewrite mul_ty; [|exact Gp|exact Gx|rewrite levels_build; exact N3|rewrite levels_build; apply polys_shorter; auto; apply polys_longer; auto].
  rewrite levels_build, leaf_build. change (levels x) with ((k, t) :: levels c). change (leaf x) with (leaf c). change (keys x) with (k :: keys c). rewrite L2, <- (nu_assoc M D j NU), joined_leaf. change (joined j p (k :: keys c) (leaf c)) with (j (p k) (joined j p (keys c) (leaf c))). rewrite fi, andb_true_r.
  assert (IA : forall a, iadd M D (build (longer (levels u) (levels x)) a) (build (longer (levels u) (levels x)) a) = true).
  { intros a. destruct (longer_or (levels u) (levels x)) as [-> | ->]; [apply (iadd_same _ _ _ u)|apply (iadd_same _ _ _ x)]; auto. }
  change (levels x) with ((k, t) :: levels c) in IA. rewrite IA. reflexivity.
Qed.

(** C94. Derivatives: the levels stay; the innermost coefficients get the common type of theirs and of the exponents of the monomials of all levels. *)
Theorem derivative_types : forall p (x : ty), good M x -> polys M (levels x) -> (forall k, In k (keys x) -> d_kdiff D k = Some (p k)) ->
  diff_ty M D x = Some (build (levels x) (joined j p (keys x) (leaf x))).
Proof.
  intros p x Gx. induction x as [b|k c IH t]; intros Px PP.
  - cbn. rewrite (nu_diff M D j NU). reflexivity.
  - destruct Gx as (C1 & C2 & Gc). set (x := TS k c t) in *. assert (Gx : good M x) by (cbn; auto). assert (Pc : polys M (levels c)) by (intros k1 t1 J; apply Px; right; exact J).
    change (diff_ty M D x) with (if t_poly M t then match diff_ty M D c, d_kdiff D k with
      | Some dc, Some dk => match mul M c (TB dk) with
        | Some p1 => if ty_eqb M dc c && ty_eqb M p1 c then Some x
          else match mul M dc x, mul M p1 x with Some p2, Some p3 => match addsub M (t_add M) p2 p3 with Some s => if iadd M D s s && iadd M D s p2 && from_int M s && from_int M c then Some s else None | None => None end | _, _ => None end
        | None => None end
      | _, _ => None end else None).
    rewrite (proj2 (Px k t (or_introl eq_refl))), IH by (auto; intros k1 J; apply PP; right; exact J). rewrite (PP k (or_introl eq_refl)).
    set (d := joined j p (keys c) (leaf c)). set (b := leaf c) in *.
    assert (M1 : mul M c (TB (p k)) = Some (build (levels c) (j b (p k)))).
    { rewrite mul_ty; [|exact Gc|exact I|right; exists (levels c); cbn; rewrite app_nil_r; reflexivity|rewrite shorter_ge by (cbn; lia); intros ? ? []]. rewrite longer_ge by (cbn; lia). reflexivity. }
    rewrite M1. assert (JX : joined j p (keys x) (leaf x) = j (p k) d) by reflexivity. rewrite JX.
    destruct (ty_eqb M (build (levels c) d) c && ty_eqb M (build (levels c) (j b (p k))) c) eqn:E.
    + apply andb_prop in E as [E1 E2]. apply (ty_eqb_iff M SO) in E1. apply (ty_eqb_iff M SO) in E2. apply (f_equal leaf) in E1. apply (f_equal leaf) in E2. rewrite leaf_build in E1, E2. fold b in E1, E2.
      rewrite E1, (nu_comm M D j NU), E2. unfold b. change (levels x) with ((k, t) :: levels c). change (build ((k, t) :: levels c) (leaf c)) with (TS k (build (levels c) (leaf c)) t). rewrite build_leaf. reflexivity.
    + assert (MX : forall a, mul M (build (levels c) a) x = Some (build (levels x) (j a b))).
      { intros a. assert (NN : nested (levels c) (levels x)) by (left; exists [(k, t)]; reflexivity).
        rewrite mul_ty; [|apply good_lev; auto|exact Gx|rewrite levels_build; exact NN|rewrite levels_build; apply polys_shorter; auto].
        rewrite levels_build, leaf_build, longer_le; [reflexivity|exact NN|cbn; lia]. }
      rewrite !MX. rewrite add_ty; [|apply good_lev; exact Gx|apply good_lev; exact Gx|rewrite !levels_build; left; apply inner_refl].
      rewrite !levels_build, !leaf_build, longer_ge by lia. rewrite !(iadd_same _ _ _ x Gx eq_refl), !fi. cbn [andb]. do 2 f_equal.
      assert (DB : j d b = d) by apply joined_leaf. rewrite DB, nu_left. rewrite (nu_assoc M D j NU), DB. apply (nu_comm M D j NU).
Qed.
(** C94. Integrals: the innermost coefficients get the common type of theirs and of the exponents of the outermost monomials. *)
Theorem integral_types : forall p (x : ty) k t b, good M x -> polys M (levels x) -> hd_error (levels x) = Some (k, t) -> d_kint D k = Some b -> (forall k, In k (keys x) -> d_kdiff D k = Some (p k)) ->
  integrate_ty M D x = Some (build (levels x) (j (leaf x) b)).
Proof.
  intros p x k t b Gx Px H KI PP. destruct x as [|k' c t']; [discriminate|]. cbn in H. assert (k' = k /\ t' = t) as [-> ->] by (split; congruence).
  destruct Gx as (C1 & C2 & Gc). set (x := TS k c t) in *. assert (Gx : good M x) by (cbn; auto). assert (Pc : polys M (levels c)) by (intros k1 t1 J; apply Px; right; exact J).
  assert (ZT : forall z : ty, zero_testable M z = true) by (intros [|]; [apply (nu_zt M D j NU)|reflexivity]).
  change (integrate_ty M D x) with (if t_poly M t && t_merge M k then match diff_ty M D c, d_kint D k with
    | Some dc, Some ki => match div M c (TB ki) with
      | Some q => if zero_testable M dc && ty_eqb M q c then Some x else match mul M q x with Some r => if iadd M D r r && from_int M r && from_int M c && zero_testable M dc then Some r else None | None => None end
      | None => None end
    | _, _ => None end else None).
  rewrite (proj2 (Px k t (or_introl eq_refl))), C2, (derivative_types p c) by (auto; intros k1 J; apply PP; right; exact J). cbn [andb]. rewrite KI.
  assert (Q : div M c (TB b) = Some (build (levels c) (j (leaf c) b))).
  { apply (quotient_types M SO (nu_promotes _ (nu_div M D j NU)) nu_absorbs_right); auto. exists b, (j (leaf c) b). split; [reflexivity|]. split; [apply (nu_div M D j NU)|reflexivity]. }
  rewrite Q, ZT. cbn [andb]. destruct (ty_eqb M (build (levels c) (j (leaf c) b)) c) eqn:E.
  - apply (ty_eqb_iff M SO) in E. apply (f_equal leaf) in E. rewrite leaf_build in E. change (leaf x) with (leaf c). rewrite E. change (levels x) with ((k, t) :: levels c). change (build ((k, t) :: levels c) (leaf c)) with (TS k (build (levels c) (leaf c)) t). rewrite build_leaf. reflexivity.
  - assert (NN : nested (levels c) (levels x)) by (left; exists [(k, t)]; reflexivity).
    rewrite mul_ty; [|apply good_lev; auto|exact Gx|rewrite levels_build; exact NN|rewrite levels_build; apply polys_shorter; auto].
    rewrite levels_build, leaf_build, longer_le; [|exact NN|cbn; lia]. rewrite (iadd_same _ _ _ x Gx eq_refl), !fi. cbn [andb]. change (leaf x) with (leaf c). rewrite nu_left. reflexivity.
Qed.
End N.
End T.

Print Assumptions degree_types.
Print Assumptions truncation_types.
Print Assumptions nested_not_truncatable.
Print Assumptions truncated_product_types.
Print Assumptions power_types.
Print Assumptions power_repeats_types.
Print Assumptions evaluation_types.
Print Assumptions evaluation_unchanged.
Print Assumptions substitution_types.
Print Assumptions derivative_types.
Print Assumptions integral_types.

(** * The hypotheses are met: int, mp++ rationals and double as [bI], [bQ] and [bD] *)
Definition xpow a b := match a, b with bI, bI => None | bI, bD => Some bD | bI, bQ => Some bQ | bQ, bD => Some bD | a, _ => Some a end.
Definition XD : tbl2 xb xk := Tbl2 xb xk (fun _ => None) (fun _ => Some bI) (fun _ _ => true) (fun _ => true) xpow (fun b => match b with bI => true | _ => false end)
  (fun _ => Some bI) (fun _ _ => true) (fun _ => true) (fun b => Some b) (fun _ => Some bI) (fun _ => Some bI).
Definition pq := TS kP (TB bQ) gPoly.
Lemma XM_same : same_ok XM. Proof. exact (proj1 ex_types). Qed.
Lemma XM_one : one_poly XM. Proof. intros [] []; auto; discriminate. Qed.
Lemma XM_numbers : numbers XM XD join.
Proof. constructor; try reflexivity; try (intros [] []; reflexivity); try (intros [] [] []; reflexivity); intros []; reflexivity. Qed.
Example ex_types2 : good XM pp /\ good XM pq /\ polys XM (levels pp) /\ nested (levels pq) (levels pp) /\ powers XD (fun _ => bQ) pq (keys pp) /\ powers XD (fun _ => bD) (TB bD : ty xb xk xg) (keys pp) /\
  degree_ty XM XD pp = Some bI /\ degree_algo XM XD pp = 1 /\ degree_algo XM XD pd = 3 /\ truncatable XM XD pd bI = true /\ truncatable XM XD pp bI = false /\
  truncated_mul_ok XM XD pd pq bI = true /\ truncated_mul_ok XM XD pp pp bI = false /\
  pow_ty XM XD pd bI = Some pd /\ pow_ty XM XD pp bI = None /\ pow_repeats XM XD pq bI = true /\ pow_repeats XM XD pq bD = false /\
  evaluate_ty XM XD (TB bD) pp = TB bD /\ evaluate_ty XM XD pq pp = pq /\ subs_ty XM XD (TB bD) pq = pd /\ subs_ty XM XD pq pp = TS kP (TS kP (TB bQ) gPoly) gPoly /\
  evaluate_ty XM XD (TB bI) pp = pp /\ subs_ty XM XD (TB bI) pd = pd /\ diff_ty XM XD pp = Some pp /\ diff_ty XM XD pps = None /\ integrate_ty XM XD pp = Some pp.
Proof.
  split; [repeat split|]. split; [repeat split|]. split; [intros k t [E|[E|[]]]; inversion E; split; reflexivity|]. split; [left; exists [(kP, gPoly)]; reflexivity|].
  split; [intros k _; exists bI; split; reflexivity|]. split; [intros k _; exists bI; split; reflexivity|]. repeat split.
Qed.
(** With exponents of another type than the coefficients: int coefficients and exponents of a wider type (here rationals). *)
Definition XW : tbl2 xb xk := Tbl2 xb xk (fun _ => None) (fun k => match k with kP => Some bI | kD => None end) (fun _ _ => true) (fun _ => true) xpow (fun _ => true) (fun _ => Some bI) (fun _ _ => true) (fun _ => true) (fun b => Some b)
  (fun k => match k with kP => Some bI | kD => Some bQ end) (fun _ => Some bQ).
Definition pw := TS kP (TS kD (TB bI) gPoly) gPoly.
Example ex_types3 : numbers XM XW join /\ good XM pw /\ polys XM (levels pw) /\ diff_ty XM XW pw = Some (TS kP (TS kD (TB bQ) gPoly) gPoly) /\ integrate_ty XM XW pp = Some (TS kP (TS kP (TB bQ) gPoly) gPoly) /\
  truncatable XM XW pw bI = true /\ degree_ty XM XW (TS kD (TB bI) gPoly) = None.
Proof.
  split; [constructor; try reflexivity; try (intros [] []; reflexivity); try (intros [] [] []; reflexivity); intros []; reflexivity|]. split; [repeat split|].
  split; [intros k t [E|[E|[]]]; inversion E; split; reflexivity|]. repeat split.
Qed.

(** C94. Evaluating a polynomial at numbers does not always give a number: at values of type int it compiles and returns the polynomial. *)
Theorem evaluation_is_number_refuted : ~ forall (M : tbl xb xk xg) (D : tbl2 xb xk) (j : xb -> xb -> xb) (x : ty xb xk xg) (u : xb),
  same_ok M -> numbers M D j -> one_poly M -> good M x -> polys M (levels x) -> (forall k, In k (keys x) -> d_kexp D k <> None) -> rank (evaluate_ty M D (TB u) x) = 0.
Proof.
  intros H. pose proof ex_types2 as (A & _ & P & _). assert (X : rank (evaluate_ty XM XD (TB bI) pp) = 0) by (apply (H XM XD join); auto; [apply XM_same|apply XM_numbers|apply XM_one|intros k _ E; discriminate E]).
  vm_compute in X. discriminate X.
Qed.
Print Assumptions evaluation_is_number_refuted.
