(** Exponentiation through the cache of powers. *)
From Coq Require Import ZArith List Bool String Arith Sorted Permutation Lia Ring Ring_theory.
From Verif Require Import Base IntModel SymModel SymSpec SymProofs P_Sym PMonSpec KeyOps
  SeriesModel SeriesModel2 SeriesSpec SeriesProofs SeriesProofs2 SeriesProofs3 SeriesProofs4 SeriesProofs5 SeriesProofs6 Lin EvalSpec SeriesEval SeriesProofs7 P_Series P_Series2
  PolyModel PolyModel2 PolySpec PolyProofs7 PolyProofs8 PolyProofs9 P_Poly.
Import ListNotations.
Open Scope Z_scope.
Open Scope res_scope.
Local Notation len := List.length.

(** The cache, for any notion P of "r is the i-th power of b". *)
Section Cache.
Context {K C Tag : Type} (KO : key_ops K) (CO : cf_ops C) (PO : tbl_policy (K * C)) (TO : tag_ops Tag).
Notation series := (series K C Tag).
Variable good : series -> Prop.
Variable same_base : series -> series -> Prop.
Variable P : series -> nat -> series -> Prop.
Hypothesis ident : forall a b, good a -> good b -> exists t, series_are_identical KO CO TO a b = Ok t /\ (t = true -> same_base a b).
Hypothesis P_same : forall a b i r, good a -> good b -> same_base a b -> P a i r -> P b i r.
Hypothesis P_same_sym : forall a b i r, good a -> good b -> same_base a b -> P b i r -> P a i r.
Hypothesis one : exists o, series_of_cf KO CO PO TO (c_one CO) [] = Ok o /\ forall b, good b -> P b 0 o.
Notation cache := (@pow_cache K C Tag).
Definition cache_ok (m : cache) : Prop := forall b v, In (b, v) m -> good b /\ forall i r, nth_error v i = Some r -> P b i r.
(** Every product of a power by the base that succeeds is the next power. *)
Definition mul_ok (mul : series -> series -> res series) : Prop := forall b i r r', good b -> P b i r -> mul r b = Ok r' -> P b (S i) r'.

Lemma cache_lookup_ok (m : cache) base : cache_ok m -> good base -> exists o, cache_lookup KO CO TO m base = Ok o /\
  match o with None => True | Some (b, v) => In (b, v) m /\ same_base b base end.
Proof.
  induction m as [|[b v] m IH]; intros OK G; [exists None; auto|]. cbn [cache_lookup]. destruct (OK b v (or_introl eq_refl)) as [Gb _].
  destruct (ident b base Gb G) as (t & -> & Ht). cbn [bind]. destruct t; [exists (Some (b, v)); split; [reflexivity|]; split; [left; reflexivity|auto]|].
  destruct IH as (o & E & H); [intros b' v' I; apply OK; right; exact I|exact G|]. exists o. split; [exact E|]. destruct o as [[b' v']|]; [|exact I]. destruct H. split; [right|]; auto.
Qed.
Lemma cache_store_ok (m : cache) base w : cache_ok m -> good base -> exists m', cache_store KO CO TO m base w = Ok m' /\
  forall b v, In (b, v) m' -> In (b, v) m \/ (v = w /\ good b /\ (b = base \/ same_base b base)).
Proof.
  induction m as [|[b v] m IH]; intros OK G.
  - exists [(base, w)]. split; [reflexivity|]. intros b v [[= <- <-]|[]]. right. auto.
  - cbn [cache_store]. destruct (OK b v (or_introl eq_refl)) as [Gb _]. destruct (ident b base Gb G) as (t & -> & Ht). cbn [bind]. destruct t.
    + eexists. split; [reflexivity|]. intros b' v' [[= <- <-]|I]; [right; auto|left; right; exact I].
    + destruct IH as (m' & -> & H); [intros b' v' I; apply OK; right; exact I|exact G|]. cbn [bind]. eexists. split; [reflexivity|].
      intros b' v' [[= <- <-]|I]; [left; left; reflexivity|]. destruct (H b' v' I) as [J|J]; [left; right; exact J|right; exact J].
Qed.

Definition powers (b : series) (v : list series) : Prop := forall i r, nth_error v i = Some r -> P b i r.
Lemma fill_ok mul b : mul_ok mul -> good b -> forall fuel v, v <> [] -> powers b v -> 
  let '(v', st) := fill_powers mul b fuel v in
  powers b v' /\ (exists w, v' = v ++ w) /\ (st = Ok tt /\ len v' = (len v + fuel)%nat \/
    exists i r, P b i r /\ (i < len v + fuel - 1)%nat /\ fuel <> 0%nat /\ ((exists e, mul r b = Throw e /\ st = Throw e) \/ (mul r b = UB /\ st = UB))).
Proof.
  intros MO G. induction fuel as [|fuel IH]; intros v NV PV; cbn [fill_powers].
  - split; [exact PV|]. split; [exists []; rewrite app_nil_r; reflexivity|]. left. split; [reflexivity|lia].
  - assert (LV : (0 < len v)%nat) by (destruct v; [congruence|cbn; lia]). assert (X : (len v - 1 < len v)%nat) by lia. apply nth_error_Some in X. destruct (nth_error v (len v - 1)) as [l|] eqn:EL; [|congruence].
    unfold rd. rewrite EL. cbn [bind]. pose proof (PV _ _ EL) as PL. destruct (mul l b) as [p|e|] eqn:EM.
    + assert (PV' : powers b (v ++ [p])).
      { intros i r Ei. destruct (Nat.lt_ge_cases i (len v)) as [L|L]; [rewrite nth_error_app1 in Ei by exact L; apply PV; exact Ei|].
        rewrite nth_error_app2 in Ei by exact L. destruct (i - len v)%nat eqn:Ed; [|destruct n; discriminate]. injection Ei as <-. assert (i = S (len v - 1)) by lia. subst i. eapply MO; eauto. }
      specialize (IH (v ++ [p]) ltac:(destruct v; discriminate) PV'). destruct (fill_powers mul b fuel (v ++ [p])) as [v' st]. destruct IH as (A & (w & EW) & B). split; [exact A|]. split; [exists (p :: w); rewrite EW, <- app_assoc; reflexivity|].
      assert (LP : len (v ++ [p]) = S (len v)) by (rewrite app_length; cbn [List.length]; lia). rewrite LP in B. cbn [List.length] in B. destruct B as [[B1 B2]|(i & r & B1 & B2 & _ & B3)]; [left; split; [exact B1|lia]|right; exists i, r; split; [exact B1|]; split; [lia|]; split; [discriminate|exact B3]].
    + split; [exact PV|]. split; [exists []; rewrite app_nil_r; reflexivity|]. right. exists (len v - 1)%nat, l. split; [exact PL|]. split; [lia|]. split; [discriminate|]. left. eauto.
    + split; [exact PV|]. split; [exists []; rewrite app_nil_r; reflexivity|]. right. exists (len v - 1)%nat, l. split; [exact PL|]. split; [lia|]. split; [discriminate|]. right. auto.
Qed.

Lemma pow_from_cache_ok mul (m : cache) base n : mul_ok mul -> cache_ok m -> good base ->
  let '(out, m') := series_pow_from_cache KO CO PO TO mul m base n in
  cache_ok m' /\
  ((exists r, out = Ok r /\ P base n r) \/
   exists b i r, good b /\ (b = base \/ same_base b base) /\ P b i r /\ (i < n)%nat /\ ((exists e, mul r b = Throw e /\ out = Throw e) \/ (mul r b = UB /\ out = UB))).
Proof.
  intros MO OK G. unfold series_pow_from_cache. destruct (cache_lookup_ok m base OK G) as (o & -> & Ho).
  assert (X : exists b v, (match o with Some e => e | None => (base, []) end) = (b, v) /\ good b /\ (b = base \/ same_base b base) /\ powers b v).
  { destruct o as [[b v]|]; [|exists base, []; split; [reflexivity|]; split; [exact G|]; split; [auto|]; intros i r; destruct i; discriminate].
    destruct Ho as [I S]. destruct (OK b v I) as [Gb Pb]. exists b, v. split; [reflexivity|]. auto. }
  destruct X as (b & v & -> & Gb & Sb & Pv). destruct one as (o1 & E1 & P1).
  assert (Y : exists w, (match v with [] => one <- series_of_cf KO CO PO TO (c_one CO) [] ;; Ok [one] | _ => Ok v end) = Ok w /\ w <> [] /\ powers b w).
  { destruct v as [|v0 v]; [|exists (v0 :: v); split; [reflexivity|]; split; [discriminate|exact Pv]]. rewrite E1. cbn [bind]. exists [o1]. split; [reflexivity|]. split; [discriminate|].
    intros i r Ei. destruct i as [|[|i]]; try discriminate. injection Ei as <-. apply P1, Gb. }
  destruct Y as (w & -> & NW & Pw). pose proof (fill_ok mul b MO Gb (S n - len w) w NW Pw) as F. destruct (fill_powers mul b (S n - len w) w) as [v' st]. destruct F as (PV' & (w' & EW) & ST).
  destruct (cache_store_ok m base v' OK G) as (m' & -> & HM). split.
  - intros b' v0 I. destruct (HM b' v0 I) as [J|(-> & Gb' & S')]; [apply OK; exact J|]. split; [exact Gb'|]. 
    intros i r Ei. specialize (PV' i r Ei). assert (Q : P base i r). { destruct Sb as [->|Sb]; [exact PV'|]. eapply P_same; [exact Gb|exact G|exact Sb|exact PV']. }
    destruct S' as [->|S']; [exact Q|]. exact (P_same_sym b' base i r Gb' G S' Q).
  - destruct ST as [[-> L]|(i & r & Pr & LI & NF & H)].
    + left. cbn [bind]. assert (LN : (n < len v')%nat) by lia. apply nth_error_Some in LN. destruct (nth_error v' n) as [r|] eqn:En; [|congruence]. exists r. unfold rd. rewrite En. split; [reflexivity|].
      specialize (PV' n r En). destruct Sb as [->|Sb]; [exact PV'|]. eapply P_same; [exact Gb|exact G|exact Sb|exact PV'].
    + right. exists b, i, r. split; [exact Gb|]. split; [exact Sb|]. split; [exact Pr|]. split; [lia|]. destruct H as [(e & H & ->)|[H ->]]; [left; exists e; split; [exact H|reflexivity]|right; split; [exact H|reflexivity]].
Qed.
End Cache.
