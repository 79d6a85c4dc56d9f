(** Property C86: exceptions thrown anywhere inside pow() do not spoil the cache of powers. *)
From Coq Require Import ZArith List Bool String Arith Sorted Permutation Lia.
From Verif Require Import Base KpackModel KpackSpec KpackProofs P_Kpack IntModel IntSpec IntProofs SymModel SymSpec SymProofs P_Sym PMonModel PMonSpec PMonProofs PMonProofs2 P_PMon KeyOps KeyInst
  SeriesModel SeriesModel2 SeriesSpec SeriesProofs SeriesProofs2 SeriesProofs3 SeriesProofs4 SeriesProofs5 SeriesProofs6 CfInst P_Series P_Series2
  PolyModel PolyModel2 PolySpec PolyProofs7 PolyProofs8 PolyProofs9 P_Poly P_Poly2 PowProofs PowProofs2 P_Pow ExnModel ExnModel3.
Import ListNotations.
Open Scope Z_scope.
Local Notation len := List.length.

Lemma call_bind {S A} (f : unit -> M S A) s o s' : mbind mcall f s o s' -> (f tt s o s') \/ (o = None /\ s' = s).
Proof. intros [(a & s1 & (-> & _) & H)|(-> & -> & _)]; [left; destruct a; exact H|right; auto]. Qed.
Lemma res_bind {S A B} (r : res A) (f : A -> M S B) s o s' : r <> UB -> mbind (mres r) f s o s' -> (exists a, r = Ok a /\ f a s o s') \/ (o = None /\ s' = s).
Proof.
  intros NU [(a & s1 & H & H')|(-> & H)]; destruct r as [b|e|]; try congruence; cbn in H.
  - destruct H as [[= <-] ->]. left. eauto.
  - destruct H as [H _]. discriminate.
  - destruct H as [H _]. discriminate.
  - destruct H as [_ ->]. auto.
Qed.
Lemma res_end {S A} (r : res A) (s : S) o s' : r <> UB -> mres r s o s' -> s' = s /\ forall a, o = Some a -> r = Ok a.
Proof. intros NU H. destruct r as [b|e|]; [| |congruence]; destruct H as [-> ->]; (split; [reflexivity|]); [intros a [= <-]; reflexivity|discriminate]. Qed.

Section Cache.
Context {K C Tag : Type} (KO : key_ops K) (KS : key_sem K) (CO : cf_ops C) (PO : tbl_policy (K * C)) (TO : tag_ops Tag).
Context (KL : key_laws KO KS) (CL : cf_laws CO) (F0 : ks_fits KS []).
Notation series := (series K C Tag).
Notation base_ok := (base_ok KO KS CO).
Notation is_pow := (is_pow KO KS CO).
Notation cok := (cok KO KS CO).
Notation cache := (@pow_cache K C Tag).
Notation mul E := (poly_mul KO CO PO TO E).
Notation power_of b := (powers is_pow b).

Lemma store_ok (m : cache) (base b : series) v : cok m -> base_ok base -> base_ok b -> b = base \/ same_base b base -> power_of b v -> exists m', cache_store KO CO TO m base v = Ok m' /\ cok m'.
Proof.
  intros OK G Gb Sb PV. destruct (cache_store_ok KO CO TO base_ok same_base is_pow (ident_ok KO KS CO TO KL CL) m base v OK G) as (m' & E & H). exists m'. split; [exact E|].
  intros b' v0 I. destruct (H b' v0 I) as [J|(-> & Gb' & S')]; [apply OK; exact J|]. split; [exact Gb'|]. intros i r Ei. specialize (PV i r Ei).
  assert (Q : is_pow base i r) by (destruct Sb as [->|Sb]; [exact PV|]; eapply (is_pow_same KO KS CO CL); eauto). destruct S' as [->|S']; [exact Q|]. eapply (is_pow_same KO KS CO CL); [apply same_base_sym; exact S'|exact Q].
Qed.
Lemma store_bind {A} (m : cache) (base b : series) v (f : unit -> M cache A) o m' : cok m -> base_ok base -> base_ok b -> b = base \/ same_base b base -> power_of b v ->
  mbind (mstore KO CO TO base v) f m o m' -> exists m1, cok m1 /\ f tt m1 o m'.
Proof.
  intros OK G Gb Sb PV H. destruct (store_ok m base b v OK G Gb Sb PV) as (m1 & E & OK1). exists m1. split; [exact OK1|]. unfold mbind, mstore in H. rewrite E in H.
  destruct H as [([] & s1 & (_ & ->) & H)|(_ & H & _)]; [exact H|discriminate].
Qed.
Lemma powers_app (b : series) (v : list series) (p : series) : power_of b v -> is_pow b (len v) p -> power_of b (v ++ [p]).
Proof.
  intros PV PP i r Ei. destruct (Nat.lt_ge_cases i (len v)) as [L|L]; [rewrite nth_error_app1 in Ei by exact L; apply PV; exact Ei|].
  rewrite nth_error_app2 in Ei by exact L. destruct (i - len v)%nat eqn:Ed; [|destruct n; discriminate]. injection Ei as <-. assert (i = len v) by lia. subst i. exact PP.
Qed.
Lemma fill_x_ok E base b : env_ok KO KS E -> base_ok base -> base_ok b -> b = base \/ same_base b base -> forall fuel v m o m', cok m -> v <> [] -> power_of b v ->
  fill_powers_x KO CO TO (mul E) base b fuel v m o m' -> cok m' /\ forall v', o = Some v' -> power_of b v' /\ len v' = (len v + fuel)%nat.
Proof.
  intros EO G Gb Sb. induction fuel as [|fuel IH]; intros v m o m' OK NV PV H; cbn [fill_powers_x] in H.
  - destruct H as [-> ->]. split; [exact OK|]. intros v' [= <-]. split; [exact PV|lia].
  - apply call_bind in H as [H|[-> ->]]; [|split; [exact OK|discriminate]].
    assert (LV : (0 < len v)%nat) by (destruct v; [congruence|cbn; lia]). assert (X : (len v - 1 < len v)%nat) by lia. apply nth_error_Some in X. destruct (nth_error v (len v - 1)) as [l|] eqn:EL; [|congruence].
    pose proof (PV _ _ EL) as PL. unfold rd in H. rewrite EL in H. cbn [bind] in H. apply res_bind in H as [(p & EM & H)|[-> ->]]; [|split; [exact OK|discriminate]|apply (pow_mul_not_ub KO KS CO PO TO KL CL E EO b _ l Gb PL)].
    pose proof (pow_mul_ok KO KS CO PO TO KL CL E EO b _ l p Gb PL EM) as PP. replace (S (len v - 1)) with (len v) in PP by lia. pose proof (powers_app b v p PV PP) as PV'.
    apply call_bind in H as [H|[-> ->]]; [|split; [exact OK|discriminate]]. apply (store_bind m base b (v ++ [p])) in H as (m1 & OK1 & H); auto.
    apply IH in H as [OK' H]; auto; [|destruct v; discriminate]. split; [exact OK'|]. intros v' EV. destruct (H v' EV) as [A B]. split; [exact A|]. rewrite B, app_length. cbn [List.length]. lia.
Qed.
Lemma from_cache_x_ok E x n m o m' : env_ok KO KS E -> base_ok x -> cok m -> pow_from_cache_x KO CO PO TO (mul E) x n m o m' -> cok m' /\ forall r, o = Some r -> is_pow x n r.
Proof.
  intros EO G OK H. unfold pow_from_cache_x in H. apply call_bind in H as [H|[-> ->]]; [|split; [exact OK|discriminate]].
  destruct H as [(m0 & s1 & ([= ->] & ->) & H)|(-> & H & _)]; [|discriminate H].
  destruct (cache_lookup_ok KO CO TO base_ok same_base is_pow (ident_ok KO KS CO TO KL CL) m x OK G) as (f & EF & HF). rewrite EF in H. apply res_bind in H as [(f' & [= <-] & H)|[-> ->]]; [|split; [exact OK|discriminate]|discriminate].
  set (b := match f with Some e => fst e | None => x end) in H. set (v := match f with Some e => snd e | None => [] end) in H.
  assert (X : base_ok b /\ (b = x \/ same_base b x) /\ power_of b v).
  { unfold b, v. destruct f as [[b' v']|]; cbn [fst snd]; [|split; [exact G|]; split; [auto|]; intros i r; destruct i; discriminate]. destruct HF as [I S]. destruct (OK b' v' I) as [Gb Pb]. auto. }
  clearbody b v. destruct X as (Gb & Sb & PV). apply (store_bind m x b v) in H as (m1 & OK1 & H); auto.
  destruct (one_ok KO KS CO PO TO KL CL F0) as (o1 & E1 & P1).
  destruct H as [(w & m2 & HW & H)|(-> & HW)].
  - assert (W : cok m2 /\ w <> [] /\ power_of b w).
    { destruct v as [|v0 v]; [|destruct HW as [[= ->] ->]; split; [exact OK1|]; split; [discriminate|exact PV]]. rewrite E1 in HW. apply call_bind in HW as [HW|[HW _]]; [|discriminate]. apply res_bind in HW as [(a & [= <-] & HW)|[HW _]]; [|discriminate|discriminate].
      apply call_bind in HW as [HW|[HW _]]; [|discriminate]. assert (PO1 : power_of b [o1]) by (intros i r Ei; destruct i as [|[|i]]; try discriminate; injection Ei as <-; apply P1, Gb).
      apply (store_bind m1 x b [o1]) in HW as (m3 & OK3 & HW); auto. destruct HW as [[= ->] ->]. split; [exact OK3|]. split; [discriminate|exact PO1]. }
    destruct W as (OK2 & NW & PW). destruct H as [(v' & m3 & HV & H)|(-> & HV)].
    + apply (fill_x_ok E x b) in HV as [OK3 HV]; auto. destruct (HV v' eq_refl) as [PV' LV]. apply call_bind in H as [H|[-> ->]]; [|split; [exact OK3|discriminate]].
      assert (LN : (n < len v')%nat) by (destruct w; [congruence|cbn [List.length] in LV; lia]). apply nth_error_Some in LN. unfold rd in H. destruct (nth_error v' n) as [r|] eqn:En; [|congruence]. apply res_end in H as [-> H]; [|discriminate].
      split; [exact OK3|]. intros r' Er. apply H in Er as [= <-]. specialize (PV' n r En). destruct Sb as [->|Sb]; [exact PV'|]. eapply (is_pow_same KO KS CO CL); eauto.
    + apply (fill_x_ok E x b) in HV as [OK3 _]; auto. split; [exact OK3|discriminate].
  - split; [|discriminate]. destruct v as [|v0 v]; [|destruct HW; discriminate]. rewrite E1 in HW. apply call_bind in HW as [HW|[_ ->]]; [|exact OK1]. apply res_bind in HW as [(a & [= <-] & HW)|[_ ->]]; [|exact OK1|discriminate].
    apply call_bind in HW as [HW|[_ ->]]; [|exact OK1]. assert (PO1 : power_of b [o1]) by (intros i r Ei; destruct i as [|[|i]]; try discriminate; injection Ei as <-; apply P1, Gb).
    apply (store_bind m1 x b [o1]) in HW as (m3 & OK3 & HW); auto. destruct HW; discriminate.
Qed.
End Cache.

Section P.
Context {K C Tag : Type} (KO : key_ops K) (KS : key_sem K) (CO : cf_ops C) (PO : tbl_policy (K * C)) (TO : tag_ops Tag).
Context (KL : key_laws KO KS) (CL : cf_laws CO) (F0 : ks_fits KS []).
Notation series := (series K C Tag).
Notation pow_arg := (pow_arg KO KS CO).
Notation is_power := (is_power KO KS CO).
Notation cok := (cok KO KS CO).

(** The caches a program can reach: calls of pow() with any arguments, of which any number is interrupted by exceptions, anywhere; and clear_series_pow_map().
    The power of a coefficient may throw, but has no undefined behaviour. *)
Inductive reachable_x : @pow_cache K C Tag -> Prop :=
  | rx_empty : reachable_x []
  | rx_pow E cpow kn z un x m o m' : reachable_x m -> env_ok KO KS E -> pow_arg x -> (forall c, cpow c <> UB) -> poly_pow_x KO CO PO TO E cpow kn z un x m o m' -> reachable_x m'
  | rx_clear m o m' : reachable_x m -> clear_cache_x m o m' -> reachable_x m'.

Lemma single_run kn (cpow : C -> res C) (x : series) k c : wf KO KS CO x -> terms x = [(k, c)] -> cpow c <> UB ->
  bind (set_symbol_set (series_default TO) (s_ss x)) (fun retval => bind (it_deref x (series_begin x)) (fun e => bind (k_pow KO (fst e) kn (s_ss x)) (fun k => bind (cpow (snd e)) (fun c => add_term KO CO PO true retval k c)))) <> UB.
Proof.
  intros W T NU. assert (V : ks_valid KS (len (s_ss x)) k) by (apply (wf_valid _ _ _ _ W k c); rewrite T; left; reflexivity). rewrite (begin_single x (k, c) T). unfold set_symbol_set. change (series_empty (series_default TO)) with true. cbn iota. cbn [bind fst snd].
  destruct kn as [z|]; [|destruct (kl_pow _ _ KL k (s_ss x) 0 V) as (_ & _ & ->); discriminate]. destruct (kl_pow _ _ KL k (s_ss x) z V) as (K1 & K2 & _). destruct (kl_fits_dec _ _ KL (vscale z (ks_exps KS (len (s_ss x)) k))) as [F|F]; [|rewrite (K2 F); discriminate].
  destruct (K1 F) as (k' & -> & V' & _). cbn [bind]. destruct (cpow c) as [c'|e|]; [|discriminate|congruence]. cbn [bind]. destruct (single_add KO KS CO PO TO KL CL x k' c' W V') as (r & E & _).
  unfold set_symbol_set in E. change (series_empty (series_default TO)) with true in E. cbn iota in E. cbn [bind] in E. rewrite E. discriminate.
Qed.
Lemma of_cf_not_ub c : series_of_cf KO CO PO TO c [] <> UB.
Proof. destruct (of_cf_ok KO KS CO PO TO KL CL c [] ltac:(constructor) F0) as (o & E & _). rewrite E. discriminate. Qed.
Lemma pow_x_cases E cpow kn z un (x : series) m o m' : env_ok KO KS E -> pow_arg x -> (forall c, cpow c <> UB) -> cok m -> poly_pow_x KO CO PO TO E cpow kn z un x m o m' ->
  cok m' /\ forall r, o = Some r -> fst (poly_pow KO CO PO TO E cpow kn z un m x) = Ok r \/ exists n, un = Some n /\ (2 <= len (terms x))%nat /\ z = false /\ is_pow KO KS CO x n r.
Proof.
  intros EO G NU OK H. pose proof G as [W B]. unfold poly_pow_x in H. apply call_bind in H as [H|[-> ->]]; [|split; [exact OK|discriminate]]. unfold poly_pow, pow_poly_impl. destruct (Nat.eqb (series_size x) 1) eqn:S1.
  - rewrite size_terms in S1. apply Nat.eqb_eq in S1. destruct (terms x) as [|[k c] [|? ?]] eqn:T; try discriminate S1. apply res_end in H as [-> H]; [|apply (single_run kn cpow x k c W T (NU c))]. split; [exact OK|]. intros r Er. left. cbn [fst]. apply H, Er.
  - rewrite size_terms in S1. apply Nat.eqb_neq in S1. unfold series_pow_x in H. apply call_bind in H as [H|[-> ->]]; [|split; [exact OK|discriminate]]. unfold series_pow. destruct (terms x) as [|e1 [|e2 l]] eqn:T.
    + rewrite (empty_single KO KS CO KL x W T) in *. apply res_bind in H as [(a & [= <-] & H)|[-> ->]]; [|split; [exact OK|discriminate]|discriminate]. rewrite (proj2 (empty_terms x) T) in *. apply res_end in H as [-> H].
      * split; [exact OK|]. intros r Er. left. cbn [fst]. apply H, Er.
      * specialize (NU (c_zero CO)). destruct (cpow (c_zero CO)) as [c|e|]; [|discriminate|congruence]. cbn [bind]. apply of_cf_not_ub.
    + cbn in S1. congruence.
    + assert (L2 : (2 <= len (terms x))%nat) by (rewrite T; cbn; lia). rewrite <- T in *. rewrite (multi_not_single KO KS CO KL x W L2) in *. apply res_bind in H as [(a & [= <-] & H)|[-> ->]]; [|split; [exact OK|discriminate]|discriminate].
      destruct z; [apply res_end in H as [-> H]; [|apply of_cf_not_ub]; split; [exact OK|]; intros r Er; left; cbn [fst]; apply H, Er|]. destruct un as [n|]; [|destruct H as [-> ->]; split; [exact OK|discriminate]].
      apply (from_cache_x_ok KO KS CO PO TO KL CL F0) in H as [OK' H]; auto. split; [exact OK'|]. intros r Er. right. exists n. auto.
Qed.
Lemma reachable_x_ok m : reachable_x m -> cok m.
Proof. induction 1 as [|E cpow kn z un x m o m' R IH EO G NU H|m o m' R IH H]; [intros ? ? []| |destruct H as [_ ->]; intros ? ? []]. eapply pow_x_cases in H; eauto. apply H. Qed.

(** C86. After any history of calls, also interrupted ones, a call of pow() in which anything may throw gives the power, if it returns. *)
Theorem pow_exceptions : forall m E cpow n (x : series) o m', reachable_x m -> env_ok KO KS E -> pow_arg x -> (forall c, cpow c = Ok (cpower CO c n)) ->
  poly_pow_x KO CO PO TO E cpow (Some (Z.of_nat n)) (Nat.eqb n 0) (Some n) x m o m' -> reachable_x m' /\ forall r, o = Some r -> is_power x n r.
Proof.
  intros m E cpow n x o m' R EO G CP H. assert (NU : forall c, cpow c <> UB) by (intros c; rewrite CP; discriminate). split; [eapply rx_pow; eauto|]. pose proof (reachable_x_ok m R) as OK. apply pow_x_cases in H as [_ H]; auto. intros r Er. destruct (H r Er) as [ER|(n' & [= <-] & _ & _ & P)].
  - pose proof (pow_raw KO KS CO PO TO KL CL F0 E cpow n m x EO G OK CP) as Q. cbv zeta in Q. rewrite ER in Q. destruct Q as [(r0 & [= <-] & P & _)|[[X|X] _]]; [exact P|discriminate|discriminate].
  - apply (pow_of_power KO KS CO CL). exact (proj1 P).
Qed.
(** C86. After such a history a call which is not interrupted behaves as after no history: as in pow_exact (P_Pow.v). *)
Theorem pow_after_exceptions : forall m E cpow n (x : series), reachable_x m -> env_ok KO KS E -> pow_arg x -> (forall c, cpow c = Ok (cpower CO c n)) ->
  let out := fst (poly_pow KO CO PO TO E cpow (Some (Z.of_nat n)) (Nat.eqb n 0) (Some n) m x) in
  (exists r, out = Ok r /\ is_power x n r) \/
  (key_overflow out /\
   ((exists k c, terms x = [(k, c)] /\ ~ ks_fits KS (vscale (Z.of_nat n) (ks_exps KS (len (s_ss x)) k))) \/
    exists i x' y, (i < n)%nat /\ wf KO KS CO x' /\ s_ss x' = s_ss x /\ Permutation (terms x') (terms x) /\ is_power x i y /\ (unrepresentable KS (s_ss x) y x' \/ capacity y x'))).
Proof.
  intros m E cpow n x R EO G CP. cbv zeta. pose proof (pow_raw KO KS CO PO TO KL CL F0 E cpow n m x EO G (reachable_x_ok m R) CP) as H. cbv zeta in H. destruct H as [(r & ER & P & _)|[KV [H|(_ & i & x' & y & L & X & P & U)]]]; [left; eauto|right; auto|right].
  split; [exact KV|]. right. exists i, x', y. split; [exact L|]. destruct X as [->|[WX [SX PX]]]; [split; [apply G|]; split; [reflexivity|]; split; [apply Permutation_refl|]|split; [exact WX|]; split; [exact SX|]; split; [exact PX|]];
    (split; [apply (pow_of_power KO KS CO CL); exact (proj1 P)|exact U]).
Qed.
End P.
Print Assumptions pow_exceptions.
Print Assumptions pow_after_exceptions.

(** Non-vacuity: computing the cube of 3 a b^2 - 2 a + 7 b, the second multiplication throws; the cache keeps the powers 0, 1 and a later call gives the cube. *)
Lemma call_ok {S A} (f : unit -> M S A) s o s' : f tt s o s' -> mbind mcall f s o s'.
Proof. intros H. left. exists tt, s. split; [split; auto|exact H]. Qed.
Lemma call_throws {S A} (f : unit -> M S A) s : mbind mcall f s None s.
Proof. right. split; [reflexivity|]. split; auto. Qed.
Lemma res_ok {S A B} (r : res A) (f : A -> M S B) a s o s' : r = Ok a -> f a s o s' -> mbind (mres r) f s o s'.
Proof. intros -> H. left. exists a, s. split; [split; reflexivity|exact H]. Qed.
Lemma get_run {S A} (f : S -> M S A) s o s' : f s s o s' -> mbind mget f s o s'.
Proof. intros H. left. exists s, s. split; [split; reflexivity|exact H]. Qed.
Lemma store_run {K C Tag A} (KO : key_ops K) (CO : cf_ops C) (TO : tag_ops Tag) base v (f : unit -> M _ A) m m1 o m' : cache_store KO CO TO m base v = Ok m1 -> f tt m1 o m' -> mbind (mstore KO CO TO base v) f m o m'.
Proof. intros E H. left. exists tt, m1. split; [unfold mstore; rewrite E; auto|exact H]. Qed.
Lemma bind_run {S A B} (c : M S A) (f : A -> M S B) a s s1 o s' : c s (Some a) s1 -> f a s1 o s' -> mbind c f s o s'.
Proof. intros H H'. left. eauto. Qed.
Lemma bind_throws {S A B} (c : M S A) (f : A -> M S B) s s' : c s None s' -> mbind c f s None s'.
Proof. intros H. right. auto. Qed.
Definition ex_one : series Z Z Z := get d0 (series_of_cf exK Z_cf exP Z_tag 1 []).
Definition ex_p1 : series Z Z Z := get d0 (poly_mul exK Z_cf exP Z_tag (exE true 1) ex_one ex_x).
Definition ex_cache : @pow_cache Z Z Z := [(ex_x, [ex_one; ex_p1])].
Example ex_interrupted : poly_pow_x exK Z_cf exP Z_tag (exE true 1) (fun c => Ok (cpower Z_cf c 3)) (Some 3) false (Some 3%nat) ex_x [] None ex_cache.
Proof.
  unfold poly_pow_x. apply call_ok. replace (Nat.eqb (series_size ex_x) 1) with false by (vm_compute; reflexivity). unfold series_pow_x. apply call_ok. apply (res_ok _ _ false); [vm_compute; reflexivity|]. cbv iota.
  unfold pow_from_cache_x. apply call_ok. apply get_run. apply (res_ok _ _ None); [reflexivity|]. cbv iota zeta. apply (store_run _ _ _ _ _ _ _ [(ex_x, [])]); [vm_compute; reflexivity|].
  apply (bind_run _ _ [ex_one] _ [(ex_x, [ex_one])]).
  - apply call_ok. apply (res_ok _ _ ex_one); [vm_compute; reflexivity|]. apply call_ok. apply (store_run _ _ _ _ _ _ _ [(ex_x, [ex_one])]); [vm_compute; reflexivity|]. split; reflexivity.
  - apply bind_throws. change (4 - len [ex_one])%nat with 3%nat. cbn [fill_powers_x]. apply call_ok. apply (res_ok _ _ ex_p1); [vm_compute; reflexivity|]. apply call_ok. apply (store_run _ _ _ _ _ _ _ ex_cache); [vm_compute; reflexivity|]. apply call_throws.
Qed.
Example ex_later : reachable_x exK exS Z_cf exP Z_tag ex_cache /\ exists r, fst (ex_pow true 1 3 ex_cache ex_x) = Ok r /\ series_size r = 10%nat /\ coef exS Z_cf ["a"; "b"]%string r [2; 3] = -252.
Proof.
  split.
  - eapply rx_pow; [apply rx_empty|apply exE_ok| | |exact ex_interrupted]; [apply ex_pow_arg|intros c; discriminate].
  - eexists. split; [vm_compute; reflexivity|]. split; vm_compute; reflexivity.
Qed.
