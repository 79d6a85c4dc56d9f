(** Accumulation of term products in a table; the simple and the segmented algorithm build the product. *)
From Coq Require Import ZArith List Bool String Arith Lia Permutation Sorted Ring Ring_theory.
From Verif Require Import Base SymSpec SymModel PMonSpec KeyOps SeriesModel SeriesSpec PolyModel PolySpec PolyProofs PolyProofs2 PolyProofs3 PolyProofs4 SeriesProofs SeriesProofs2 SeriesProofs5.
Import ListNotations.
Open Scope Z_scope.
Notation len := List.length.

Lemma forall2_nth {A B} (R : A -> B -> Prop) l l' : Forall2 R l l' -> forall i b, nth_error l' i = Some b -> exists a, nth_error l i = Some a /\ R a b.
Proof. induction 1; intros [|i] b' E; try discriminate; cbn in *; [inversion E; subst; eauto|]. apply IHForall2. exact E. Qed.

Section Acc.
Context {K C Tag : Type} (KO : key_ops K) (KS : key_sem K) (CO : cf_ops C) (PO : tbl_policy (K * C)).
Hypothesis KL : key_laws KO KS.
Hypothesis CL : cf_laws CO.
Notation term := (K * C)%type.
Notation "0c" := (c_zero CO).
Infix "+c" := (c_add CO) (at level 50, left associativity).
Infix "*c" := (c_mul CO) (at level 40, left associativity).
Add Ring Cring5 : (cl_ring CO CL).
Variable ss : symbol_set.
Notation n := (len ss).
Notation exps := (ks_exps KS n).
Notation valid := (ks_valid KS n).

(** The product of two terms. *)
Definition pterm (p : term * term) : term :=
  ((match k_mul KO (fst (fst p)) (fst (snd p)) ss with Ok r => r | _ => fst (fst p) end), snd (fst p) *c snd (snd p)).
Definition pair_ok (p : term * term) : Prop :=
  valid (fst (fst p)) /\ valid (fst (snd p)) /\ ks_fits KS (vadd (exps (fst (fst p))) (exps (fst (snd p)))).

Lemma pterm_ok p : pair_ok p -> k_mul KO (fst (fst p)) (fst (snd p)) ss = Ok (fst (pterm p)) /\ valid (fst (pterm p)) /\
  exps (fst (pterm p)) = vadd (exps (fst (fst p))) (exps (fst (snd p))) /\
  k_hash KO (fst (pterm p)) = (k_hash KO (fst (fst p)) + k_hash KO (fst (snd p))) mod 2 ^ 64.
Proof.
  intros (V1 & V2 & F). destruct (kl_mul _ _ KL _ _ ss V1 V2 F) as (r & E & V & X & H). unfold pterm. cbn [fst]. rewrite E. auto.
Qed.

Lemma accumulate_ok (tab : table K C) p : pair_ok p -> NoDup (map fst tab) ->
  exists tab', accumulate KO CO PO ss tab p = Ok tab' /\ NoDup (map fst tab') /\ (forall k, In k (map fst tab') -> In k (map fst tab) \/ k = fst (pterm p)) /\
    (forall P, psum CO P tab' = psum CO P tab +c psum CO P [pterm p]) /\ (len tab' <= S (len tab))%nat.
Proof.
  intros OK N. destruct (pterm_ok p OK) as (E & _). destruct p as [[k1 c1] [k2 c2]]. cbn [fst snd] in *. unfold accumulate. rewrite E. cbn [bind].
  set (k := fst (pterm ((k1, c1), (k2, c2)))) in *. unfold tbl_try_emplace. destruct (tbl_find KO tab k) as [e|] eqn:F.
  - apply (find_some KO KS KL) in F; [|exact N]. destruct F as [I Ek]. destruct e as [k' c0]. cbn in Ek. subst k'.
    eexists. split; [reflexivity|]. pose proof (keys_update KO tab k (fun c => c_fma CO c c1 c2)) as KU. unfold keys in KU. rewrite KU. split; [exact N|]. split; [auto|]. split.
    + intros P. rewrite (update_psum KO KS CO KL CL _ _ _ c0) by auto. rewrite (cl_fma CO CL), (psum_cons CO CL), psum_nil. f_equal. fold k. destruct (P k); cbn [ifP snd pterm fst]; ring.
    + rewrite update_len. lia.
  - apply (find_none KO KS KL) in F. eexists. split; [reflexivity|]. pose proof (reorder_perm PO ((k, c1 *c c2) :: tab)) as RP. split; [|split; [|split]].
    + eapply Permutation_NoDup; [apply Permutation_map, Permutation_sym, RP|]. cbn [map fst]. constructor; auto.
    + intros q I. apply (Permutation_in _ (Permutation_map fst RP)) in I. cbn [map fst] in I. destruct I; auto.
    + intros P. rewrite (psum_perm CO CL P _ _ RP). rewrite !(psum_cons CO CL), psum_nil. fold k. cbn [fst snd pterm]. ring.
    + rewrite (Permutation_length RP). cbn. lia.
Qed.

Lemma accumulate_all pairs : (forall p, In p pairs -> pair_ok p) -> forall tab, NoDup (map fst tab) ->
  exists tab', rfold (accumulate KO CO PO ss) pairs tab = Ok tab' /\ NoDup (map fst tab') /\
    (forall k, In k (map fst tab') -> In k (map fst tab) \/ exists p, In p pairs /\ k = fst (pterm p)) /\
    (forall P, psum CO P tab' = psum CO P tab +c psum CO P (map pterm pairs)) /\ (len tab' <= len tab + len pairs)%nat.
Proof.
  induction pairs as [|p pairs IH]; intros OK tab N.
  - exists tab. split; [reflexivity|]. split; [exact N|]. split; [auto|]. split; [|cbn; lia]. intros P. cbn [map]. rewrite psum_nil. ring.
  - cbn [rfold]. destruct (accumulate_ok tab p (OK p (or_introl eq_refl)) N) as (t1 & -> & N1 & K1 & P1 & L1). cbn [bind].
    destruct (IH (fun q I => OK q (or_intror I)) t1 N1) as (t2 & -> & N2 & K2 & P2 & L2). exists t2. split; [reflexivity|]. split; [exact N2|]. split; [|split].
    + intros k I. destruct (K2 k I) as [J|(q & J & ->)]; [|right; exists q; split; [right; exact J|reflexivity]]. destruct (K1 k J) as [J1|J1]; [left; exact J1|]. subst k. right. exists p. split; [left; reflexivity|reflexivity].
    + intros P. rewrite P2, P1. cbn [map]. rewrite !(psum_cons CO CL), psum_nil. ring.
    + cbn [List.length]. lia.
Qed.

(** The final table of a task. *)
Lemma task_table pairs : (forall p, In p pairs -> pair_ok p) -> 
  exists tab, rfold (accumulate KO CO PO ss) pairs [] = Ok tab /\ let t := erase_zeros CO tab in
    NoDup (map fst t) /\ (forall k c, In (k, c) t -> c <> 0c /\ exists p, In p pairs /\ k = fst (pterm p)) /\
    (forall P, psum CO P t = psum CO P (map pterm pairs)) /\ (len t <= len pairs)%nat.
Proof.
  intros OK. destruct (accumulate_all pairs OK [] (NoDup_nil _)) as (tab & E & N & Kk & P & L). exists tab. split; [exact E|]. cbn zeta. unfold erase_zeros. split; [|split; [|split]].
  - apply filter_nodup. exact N.
  - intros k c I. apply filter_In in I as [I Z0]. split.
    + intros ->. cbn [snd] in Z0. rewrite (proj2 (cl_zero CO CL 0c) eq_refl) in Z0. discriminate.
    + destruct (Kk k) as [[]|X]; [apply in_map_iff; exists (k, c); auto|exact X].
  - intros Q. rewrite (psum_filter_nz CO CL), P. rewrite psum_nil. ring.
  - etransitivity; [apply filter_len|]. cbn in L. exact L.
Qed.
End Acc.
