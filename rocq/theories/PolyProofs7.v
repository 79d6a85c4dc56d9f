(** The product of two series over any symbols. *)
From Coq Require Import ZArith List Bool String Arith Lia Permutation Sorted Ring Ring_theory.
From Verif Require Import Base IntModel SymSpec SymModel SymProofs P_Sym PMonSpec KeyOps SeriesModel SeriesSpec PolyModel PolySpec PolyProofs PolyProofs2 PolyProofs3 PolyProofs4 Lin SeriesProofs SeriesProofs2 SeriesProofs4 SeriesProofs5 SeriesEval SeriesProofs7 PolyProofs5 PolyProofs6.
Import ListNotations.
Open Scope Z_scope.
Notation len := List.length.

Section Bil.
Context {C : Type} (CO : cf_ops C) (CL : cf_laws CO).
Notation "0c" := (c_zero CO).
Infix "+c" := (c_add CO) (at level 50, left associativity).
Infix "*c" := (c_mul CO) (at level 40, left associativity).
Add Ring Cring7 : (cl_ring CO CL).
Notation vterm := (list Z * C)%type.

(** The sum of the products of coefficients over the pairs of terms whose exponents satisfy F. *)
Definition bil (F : list Z -> list Z -> bool) (l1 l2 : list vterm) : C :=
  csum CO (map (fun p => snd (fst p) *c snd (snd p)) (filter (fun p => F (fst (fst p)) (fst (snd p))) (list_prod l1 l2))).

Lemma bil_row (F : list Z -> list Z -> bool) (a : vterm) (l2 : list vterm) : csum CO (map (fun p => snd (fst p) *c snd (snd p)) (filter (fun p => F (fst (fst p)) (fst (snd p))) (map (pair a) l2))) = snd a *c psum CO (F (fst a)) l2.
Proof.
  induction l2 as [|b l2 IH]; [cbn; ring|]. cbn [map filter fst snd]. rewrite (psum_cons CO CL). destruct (F (fst a) (fst b)) eqn:EF; cbn [map fst snd ifP]; [|rewrite IH; ring].
  unfold csum in *. cbn [fold_right]. rewrite IH. ring.
Qed.

Lemma bil_lin F l1 l2 : bil F l1 l2 = lin 0c (c_add CO) (c_mul CO) (fun c => c) (fun v => psum CO (F v) l2) l1.
Proof.
  unfold bil. induction l1 as [|a l1 IH]; [reflexivity|]. cbn [list_prod lin]. rewrite filter_app, map_app, (csum_app CO CL), IH, bil_row. reflexivity.
Qed.

Lemma bil_swap F l1 l2 : bil F l1 l2 = bil (fun v w => F w v) l2 l1.
Proof.
  rewrite bil_lin. unfold bil. induction l2 as [|b l2 IH].
  - cbn. induction l1 as [|a l1 IH]; cbn [lin]; [reflexivity|]. rewrite IH. ring.
  - cbn [list_prod]. rewrite filter_app, map_app, (csum_app CO CL), <- IH. clear IH. rewrite (bil_row (fun v w => F w v)). 
    induction l1 as [|a l1 IH]; cbn [lin]; [rewrite psum_nil; ring|]. rewrite IH, !(psum_cons CO CL). cbn [fst snd]. destruct (F (fst a) (fst b)); cbn [ifP]; ring.
Qed.

Lemma bil_ext_l F l1 l1' l2 : (forall v, psum CO (fun x => vec_eqb x v) l1 = psum CO (fun x => vec_eqb x v) l1') -> bil F l1 l2 = bil F l1' l2.
Proof.
  intros H. rewrite !bil_lin. apply (lin_ext CO _ _ _ _ _ _ (cl_ring CO CL) (list_eq_dec Z.eq_dec) (fun c => c)); auto.
Qed.
Lemma bil_ext F l1 l1' l2 l2' : (forall v, psum CO (fun x => vec_eqb x v) l1 = psum CO (fun x => vec_eqb x v) l1') ->
  (forall v, psum CO (fun x => vec_eqb x v) l2 = psum CO (fun x => vec_eqb x v) l2') -> bil F l1 l2 = bil F l1' l2'.
Proof. intros H1 H2. rewrite (bil_ext_l F l1 l1' l2 H1), bil_swap, (bil_ext_l _ l2 l2' l1' H2), bil_swap. reflexivity. Qed.

Lemma bil_F F G l1 l2 : (forall a b, In a l1 -> In b l2 -> F (fst a) (fst b) = G (fst a) (fst b)) -> bil F l1 l2 = bil G l1 l2.
Proof.
  intros H. unfold bil. f_equal. f_equal. apply filter_ext_in. intros [a b] I. apply in_prod_iff in I as [Ia Ib]. apply H; auto.
Qed.

Lemma list_prod_map {A B A' B'} (f : A -> A') (g : B -> B') l1 l2 : list_prod (map f l1) (map g l2) = map (fun p => (f (fst p), g (snd p))) (list_prod l1 l2).
Proof. induction l1 as [|a l1 IH]; [reflexivity|]. cbn [map list_prod]. rewrite IH, map_app, !map_map. reflexivity. Qed.

Lemma bil_map F (f : list Z -> list Z) l1 l2 : bil F (map (fun e => (f (fst e), snd e)) l1) (map (fun e => (f (fst e), snd e)) l2) = bil (fun v w => F (f v) (f w)) l1 l2.
Proof.
  unfold bil. rewrite list_prod_map. f_equal. induction (list_prod l1 l2) as [|p l IH]; [reflexivity|]. cbn [map filter fst snd]. destruct (F _ _); cbn [map fst snd]; rewrite IH; reflexivity.
Qed.
End Bil.

(** ** Exponent vectors by name *)
Lemma expo_vadd u : forall v w x, len v = len u -> len w = len u -> expo u (vadd v w) x = expo u v x + expo u w x.
Proof.
  induction u as [|y u IH]; intros [|a v] [|b w] x L1 L2; try discriminate; [reflexivity|]. unfold vadd. cbn [combine map expo fst snd]. destruct (String.eqb y x); [reflexivity|]. apply IH; cbn in *; lia.
Qed.
Lemma vadd_map {A} (f g : A -> Z) l : vadd (map f l) (map g l) = map (fun x => f x + g x) l.
Proof. unfold vadd. induction l as [|x l IH]; cbn; [reflexivity|]. rewrite IH. reflexivity. Qed.
Lemma spread_vadd u us v w : len v = len u -> len w = len u -> spread u us (vadd v w) = vadd (spread u us v) (spread u us w).
Proof. intros L1 L2. unfold spread. rewrite vadd_map. apply map_ext. intros x. apply expo_vadd; auto. Qed.
Lemma vadd_comm v w : vadd v w = vadd w v.
Proof. unfold vadd. revert w. induction v as [|a v IH]; intros [|b w]; cbn; auto. rewrite IH, Z.add_comm. reflexivity. Qed.
Lemma vadd_len v w n : len v = n -> len w = n -> len (vadd v w) = n.
Proof. intros A B. unfold vadd. rewrite map_length, combine_length. lia. Qed.
Lemma degree_vadd sel u : forall v w, len v = len u -> len w = len u -> degree_of sel u (vadd v w) = degree_of sel u v + degree_of sel u w.
Proof.
  unfold degree_of, selected. induction u as [|y u IH]; intros [|a v] [|b w] L1 L2; try discriminate; [reflexivity|]. unfold vadd. cbn [combine map filter fst snd].
  assert (X : vsum (map snd (filter (fun p => sel (fst p)) (combine u (vadd v w)))) = _) by (apply (IH v w); cbn in *; lia). unfold vadd in X.
  destruct (sel y); cbn [map snd]; [|exact X]. unfold vsum in *. cbn [fold_right]. rewrite X. lia.
Qed.

(** The degree by name is that over any larger set of symbols. *)
Definition wsum (f : string -> Z) (l : list string) : Z := vsum (map f l).
Lemma degree_wsum sel us f : degree_of sel us (map f us) = wsum (fun x => if sel x then f x else 0) us.
Proof.
  unfold degree_of, selected, wsum. induction us as [|y us IH]; [reflexivity|]. cbn [map combine filter fst]. unfold vsum in *. destruct (sel y); cbn [map snd fold_right]; rewrite IH; lia.
Qed.
Lemma wsum_perm f l l' : Permutation l l' -> wsum f l = wsum f l'.
Proof. unfold wsum, vsum. induction 1; cbn; lia. Qed.
Lemma wsum_app f a b : wsum f (a ++ b) = wsum f a + wsum f b.
Proof. unfold wsum, vsum. induction a as [|x a IH]; cbn; [reflexivity|]. rewrite IH. lia. Qed.
Lemma wsum_ext f g l : (forall x, In x l -> f x = g x) -> wsum f l = wsum g l.
Proof. intros H. unfold wsum. f_equal. apply map_ext_in. exact H. Qed.
Lemma wsum_zero l : wsum (fun _ => 0) l = 0.
Proof. unfold wsum, vsum. induction l; cbn; lia. Qed.
Lemma filter_split_perm {A} (f : A -> bool) l : Permutation l (filter f l ++ filter (fun x => negb (f x)) l).
Proof. induction l as [|x l IH]; cbn; [constructor|]. destruct (f x); cbn; [constructor; exact IH|]. apply Permutation_cons_app. exact IH. Qed.
Lemma wsum_incl f u us : NoDup u -> NoDup us -> incl u us -> (forall x, ~ In x u -> f x = 0) -> wsum f us = wsum f u.
Proof.
  intros N1 N2 I Z0. set (g := fun x => if in_dec string_dec x u then true else false).
  rewrite (wsum_perm f us _ (filter_split_perm g us)), wsum_app. rewrite (wsum_ext f (fun _ => 0) (filter (fun x => negb (g x)) us)), wsum_zero.
  - rewrite Z.add_0_r. apply wsum_perm. apply NoDup_Permutation; auto.
    + clear - N2. induction N2 as [|x l H N IH]; cbn; [constructor|]. destruct (g x); auto. constructor; auto. intros J. apply filter_In in J. apply H, J.
    + intros x. rewrite filter_In. unfold g. destruct (in_dec string_dec x u) as [J|J]; split; try tauto; [intros _; split; auto|]. intros [_ Y]. discriminate.
  - intros x J. apply filter_In in J as [_ J]. apply Z0. unfold g in J. destruct (in_dec string_dec x u); [discriminate|assumption].
Qed.
Lemma degree_spread sel u us v : NoDup u -> NoDup us -> incl u us -> len v = len u -> degree_of sel us (spread u us v) = degree_of sel u v.
Proof.
  intros N1 N2 I L. unfold spread. rewrite degree_wsum. rewrite (wsum_incl _ u us N1 N2 I).
  - rewrite <- degree_wsum. rewrite map_expo_self by auto. reflexivity.
  - intros x H. rewrite expo_notin by exact H. destruct (sel x); reflexivity.
Qed.

Section Mul.
Context {K C Tag : Type} (KO : key_ops K) (KS : key_sem K) (CO : cf_ops C) (PO : tbl_policy (K * C)) (TO : tag_ops Tag) (E : mul_env K C Tag).
Hypothesis KL : key_laws KO KS.
Hypothesis CL : cf_laws CO.
Hypothesis EO : env_ok KO KS E.
Notation term := (K * C)%type.
Notation series := (series K C Tag).
Variable sel : string -> bool.
Variable lim : Z.
Variable t : option (trunc K).
Definition kept (us : symbol_set) (v w : list Z) : bool := match t with None => true | Some _ => degree_of sel us v + degree_of sel us w <=? lim end.

(** a is s written over the symbols u. *)
Definition over_u (u : symbol_set) (s a : series) : Prop := wf KO KS CO a /\ s_ss a = u /\ (len (terms a) <= len (terms s))%nat /\ forall ws, coef KS CO u a ws = coef KS CO u s ws.

Lemma exps_len (a : series) k c : wf KO KS CO a -> In (k, c) (terms a) -> len (ks_exps KS (len (s_ss a)) k) = len (s_ss a).
Proof. intros W I. apply (kl_len _ _ KL). eapply wf_valid; eauto. Qed.
Lemma spread_exps (a : series) k c : wf KO KS CO a -> In (k, c) (terms a) -> spread (s_ss a) (s_ss a) (ks_exps KS (len (s_ss a)) k) = ks_exps KS (len (s_ss a)) k.
Proof. intros W I. apply spread_self; [apply sorted_set_nodup, (wf_ss _ _ _ _ W)|eapply exps_len; eauto]. Qed.

Lemma over_term u (s a : series) k c : wf KO KS CO s -> sorted_set u -> incl (s_ss s) u -> over_u u s a -> In (k, c) (terms a) ->
  exists k' c', In (k', c') (terms s) /\ spread (s_ss s) u (ks_exps KS (len (s_ss s)) k') = ks_exps KS (len u) k.
Proof.
  intros W SU I (WA & SA & _ & EQ) J. apply (coef_nonzero KO KS CO KL CL u s); [exact W|split; auto|]. rewrite <- EQ.
  apply (coef_nonzero KO KS CO KL CL u a); [exact WA|split; auto; rewrite SA; apply incl_refl|]. exists k, c. split; [exact J|]. rewrite <- SA. eapply spread_exps; eauto.
Qed.
Lemma over_term' u (s a : series) k c : wf KO KS CO s -> sorted_set u -> incl (s_ss s) u -> over_u u s a -> In (k, c) (terms s) ->
  exists k' c', In (k', c') (terms a) /\ ks_exps KS (len u) k' = spread (s_ss s) u (ks_exps KS (len (s_ss s)) k).
Proof.
  intros W SU I (WA & SA & _ & EQ) J. assert (X : coef KS CO u a (spread (s_ss s) u (ks_exps KS (len (s_ss s)) k)) <> c_zero CO).
  { rewrite EQ. apply (coef_nonzero KO KS CO KL CL u s); [exact W|split; auto|]. exists k, c. auto. }
  apply (coef_nonzero KO KS CO KL CL u a) in X; [|exact WA|split; auto; rewrite SA; apply incl_refl]. destruct X as (k' & c' & I' & X). exists k', c'. split; [exact I'|]. rewrite <- X, <- SA. symmetry. eapply spread_exps; eauto.
Qed.

Lemma over_rep u (s a : series) : wf KO KS CO s -> sorted_set u -> incl (s_ss s) u -> over_u u s a -> ~ unrep KS u s.
Proof.
  intros W SU I O (k & c & J & N). destruct (over_term' u s a k c W SU I O J) as (k' & c' & J' & X). apply N. rewrite <- X. apply (kl_fits _ _ KL).
  destruct O as (WA & SA & _). rewrite <- SA. eapply wf_valid; eauto.
Qed.

Lemma pair_dec (u : symbol_set) a b : ks_valid KS (len u) a -> ks_valid KS (len u) b ->
  (ks_fits KS (vadd (ks_exps KS (len u) a) (ks_exps KS (len u) b)) /\ ks_total_ok KS (vsum (ks_exps KS (len u) a) + vsum (ks_exps KS (len u) b))) \/
  ~ (ks_fits KS (vadd (ks_exps KS (len u) a) (ks_exps KS (len u) b)) /\ ks_total_ok KS (vsum (ks_exps KS (len u) a) + vsum (ks_exps KS (len u) b))).
Proof.
  intros V1 V2. assert (F1 : Forall (ks_valid KS (len u)) [a]) by auto. assert (F2 : Forall (ks_valid KS (len u)) [b]) by auto.
  destruct (kl_check _ _ KL true u [a] [b] F1 F2) as [(v & Hv) H]. destruct (H v Hv) as (bb & _ & B). destruct bb.
  - left. apply B; cbn; auto.
  - right. intros N. assert (false = true); [|discriminate]. apply B. intros p q [<-|[]] [<-|[]]. exact N.
Qed.

Lemma some_bad {A} (Q : A -> Prop) l : (forall a, In a l -> Q a \/ ~ Q a) -> (forall a, In a l -> Q a) \/ exists a, In a l /\ ~ Q a.
Proof.
  induction l as [|x l IH]; intros D; [left; intros a []|]. destruct (D x (or_introl eq_refl)) as [H|H]; [|right; exists x; split; [left; reflexivity|exact H]].
  destruct IH as [G|(a & I & B)]; [intros a I; apply D; right; exact I| |right; exists a; split; [right; exact I|exact B]]. left. intros a [<-|I]; auto.
Qed.

Lemma not_all_pairs u (x y a b : series) : wf KO KS CO x -> wf KO KS CO y -> sorted_set u -> incl (s_ss x) u -> incl (s_ss y) u -> over_u u x a -> over_u u y b ->
  ~ all_pairs KS u (terms a) (terms b) -> product_unrep KS u x y.
Proof.
  intros WX WY SU IX IY OA OB NA. pose proof OA as (WA & SA & _). pose proof OB as (WB & SB & _).
  destruct (some_bad (fun p : term * term => ks_fits KS (vadd (ks_exps KS (len u) (fst (fst p))) (ks_exps KS (len u) (fst (snd p)))) /\ ks_total_ok KS (vsum (ks_exps KS (len u) (fst (fst p))) + vsum (ks_exps KS (len u) (fst (snd p))))) (list_prod (terms a) (terms b))) as [G|(p & I & B)].
  - intros [[k1 c1] [k2 c2]] I. apply in_prod_iff in I as [I1 I2]. cbn [fst snd]. apply pair_dec; [rewrite <- SA|rewrite <- SB]; eapply wf_valid; eauto.
  - exfalso. apply NA. intros p q Ip Iq. apply (G (p, q)). apply in_prod_iff. auto.
  - destruct p as [[k1 c1] [k2 c2]]. apply in_prod_iff in I as [I1 I2]. cbn [fst snd] in B.
    destruct (over_term u x a k1 c1 WX SU IX OA I1) as (k1' & c1' & J1 & E1). destruct (over_term u y b k2 c2 WY SU IY OB I2) as (k2' & c2' & J2 & E2).
    exists (k1', c1'), (k2', c2'). split; [exact J1|]. split; [exact J2|]. cbn [fst]. rewrite E1, E2. exact B.
Qed.

Lemma all_pairs_prod u (x y a b : series) : wf KO KS CO x -> wf KO KS CO y -> sorted_set u -> incl (s_ss x) u -> incl (s_ss y) u -> over_u u x a -> over_u u y b ->
  all_pairs KS u (terms a) (terms b) -> ~ product_unrep KS u x y.
Proof.
  intros WX WY SU IX IY OA OB A ([k1 c1] & [k2 c2] & I1 & I2 & B). cbn [fst] in B. apply B.
  destruct (over_term' u x a k1 c1 WX SU IX OA I1) as (k1' & c1' & J1 & E1). destruct (over_term' u y b k2 c2 WY SU IY OB I2) as (k2' & c2' & J2 & E2).
  rewrite <- E1, <- E2. apply (A (k1', c1') (k2', c2')); auto.
Qed.

(** The polynomial of a product table. *)
Lemma table_bil u us (a b r : series) Q : wf KO KS CO a -> wf KO KS CO b -> s_ss a = u -> s_ss b = u -> s_ss r = u -> sorted_set us -> incl u us ->
  all_pairs KS u (terms a) (terms b) -> product_table KO KS CO sel lim t u (terms a) (terms b) (terms r) ->
  nden KS CO us r Q = bil CO (fun v w => kept us v w && Q (vadd v w)) (vt KS us a) (vt KS us b).
Proof.
  intros WA WB SA SB SR SUS IU AP PT. unfold nden, vden. rewrite PT. rewrite SR. unfold vt. rewrite SA, SB. unfold bil. rewrite list_prod_map.
  assert (SU : sorted_set u) by (rewrite <- SA; apply (wf_ss _ _ _ _ WA)).
  assert (H : forall l : list (term * term), incl l (list_prod (terms a) (terms b)) ->
    psum CO (fun k => Q (spread u us (ks_exps KS (len u) k))) (map (pterm KO CO u) (filter (keep (D KS sel u) lim t) l)) =
    csum CO (map (fun p => c_mul CO (snd (fst p)) (snd (snd p))) (filter (fun p => kept us (fst (fst p)) (fst (snd p)) && Q (vadd (fst (fst p)) (fst (snd p))))
      (map (fun p => ((spread u us (ks_exps KS (len u) (fst (fst p))), snd (fst p)), (spread u us (ks_exps KS (len u) (fst (snd p))), snd (snd p)))) l)))); [|apply H, incl_refl].
  induction l as [|p l IH]; intros I; [reflexivity|]. specialize (IH (fun z Iz => I z (or_intror Iz))). cbn [filter map fst snd].
  assert (Ip : In p (list_prod (terms a) (terms b))) by (apply I; left; reflexivity). destruct p as [[k1 c1] [k2 c2]]. apply in_prod_iff in Ip as [I1 I2]. cbn [fst snd] in *.
  assert (V1 : ks_valid KS (len u) k1) by (rewrite <- SA; eapply wf_valid; eauto). assert (V2 : ks_valid KS (len u) k2) by (rewrite <- SB; eapply wf_valid; eauto).
  pose proof (kl_len _ _ KL _ _ V1) as L1. pose proof (kl_len _ _ KL _ _ V2) as L2.
  assert (KP : keep (D KS sel u) lim t ((k1, c1), (k2, c2)) = kept us (spread u us (ks_exps KS (len u) k1)) (spread u us (ks_exps KS (len u) k2))).
  { unfold keep, kept, within, D. destruct t; [|reflexivity]. cbn [fst snd]. assert (NU := sorted_set_nodup _ SU). assert (NUS := sorted_set_nodup _ SUS). rewrite !(degree_spread sel u us) by auto.
    destruct (Z.leb_spec (degree_of sel u (ks_exps KS (len u) k2)) (lim - degree_of sel u (ks_exps KS (len u) k1))), (Z.leb_spec (degree_of sel u (ks_exps KS (len u) k1) + degree_of sel u (ks_exps KS (len u) k2)) lim); try reflexivity; lia. }
  rewrite KP. destruct (kept us _ _); cbn [andb]; [|exact IH]. cbn [map]. rewrite (psum_cons CO CL).
  destruct (pterm_ok KO KS CO KL u ((k1, c1), (k2, c2))) as (_ & _ & X & _). { split; [exact V1|]. split; [exact V2|]. apply (AP (k1, c1) (k2, c2) I1 I2). }
  cbn [fst snd] in X. rewrite X, spread_vadd by auto. rewrite IH. destruct (Q _); cbn [ifP map fst snd pterm]; [reflexivity|]. unfold csum at 1. set (z := csum CO _). apply (Radd_0_l (cl_ring CO CL)).
Qed.

Definition mul_good (x y : series) (res : res series) : Prop :=
  exists u, union_of (s_ss x) (s_ss y) u /\
  ((exists r, res = Ok r /\ wf KO KS CO r /\ s_ss r = u /\ s_tag r = tag_default TO /\ ~ product_unrep KS u x y /\ (~ unrep KS u x /\ ~ unrep KS u y) /\
     (forall us Q, sorted_set us -> incl u us -> nden KS CO us r Q = bil CO (fun v w => kept us v w && Q (vadd v w)) (vt KS us x) (vt KS us y)) /\
     (len (terms r) <= len (terms x) * len (terms y))%nat) \/
   ((res = Throw overflow_error \/ res = Throw safe_cast_failure) /\
    (unrep KS u x \/ unrep KS u y \/ product_unrep KS u x y \/ (t <> None /\ (degree_unrep KS sel u x \/ degree_unrep KS sel u y)) \/
     full (s_log2 x) (len (terms x)) \/ full (s_log2 y) (len (terms y)) \/
     exists lg, (lg <= max_log2_size)%nat /\ max_table_size lg < Z.of_nat (len (terms x) * len (terms y))))).

Lemma vt_same us u (s a : series) v : sorted_set us -> incl u us -> incl (s_ss s) u -> wf KO KS CO s -> wf KO KS CO a -> s_ss a = u ->
  (forall Q, vden KS CO a Q = vden KS CO s (fun v => Q (spread (s_ss s) u v))) ->
  psum CO (fun x => vec_eqb x v) (vt KS us a) = psum CO (fun x => vec_eqb x v) (vt KS us s).
Proof.
  intros SUS IU IS WS WA SA H. rewrite !vt_psum. unfold nden at 1. rewrite H, SA. apply (vden_spread KS CO u us s (fun x => vec_eqb x v) IS).
Qed.

(** The product of the operands once written over the same symbols. *)
Lemma fin_ok (x y : series) : wf KO KS CO x -> wf KO KS CO y ->
  (forall u, union_of (s_ss x) (s_ss y) u -> match t with None => True | Some t => trunc_exact KS sel lim u t end) ->
  forall u (a b : series), union_of (s_ss x) (s_ss y) u -> over_u u x a -> over_u u y b ->
    (forall Q, vden KS CO a Q = vden KS CO x (fun v => Q (spread (s_ss x) u v))) -> (forall Q, vden KS CO b Q = vden KS CO y (fun v => Q (spread (s_ss y) u v))) ->
    mul_good x y (poly_mul_identical_ss KO CO PO TO E t a b).
Proof.
  intros WX WY TE.
  intros u a b UN OA OB DA DB. exists u. split; [exact UN|]. pose proof UN as [SU IU].
    assert (IX : incl (s_ss x) u) by (intros z Iz; apply IU; auto). assert (IY : incl (s_ss y) u) by (intros z Iz; apply IU; auto).
    pose proof OA as (WA & SA & NA & _). pose proof OB as (WB & SB & NB & _).
    assert (LM : (len (terms a) * len (terms b) <= len (terms x) * len (terms y))%nat) by (apply Nat.mul_le_mono; auto).
    destruct (mul_same_ok KO KS CO PO TO E KL CL EO sel lim t u (TE u UN) a b WA WB SA SB) as [(r & ER & WR & SR & TR & AP & PT & LR)|[ER B]].
    - left. exists r. split; [exact ER|]. split; [exact WR|]. split; [exact SR|]. split; [exact TR|]. split; [eapply (all_pairs_prod u x y a b); eauto|].
      split; [split; [apply (over_rep u x a)|apply (over_rep u y b)]; auto|]. split; [|lia].
      intros us Q SUS IUS. rewrite (table_bil u us a b r Q) by auto. apply (bil_ext CO CL); intros v; eapply vt_same; eauto.
    - right. split; [left; exact ER|]. destruct B as [B|[[NT (e & I & B)]|(lg & L & B)]].
      + right. right. left. apply (not_all_pairs u x y a b); auto.
      + right. right. right. left. split; [exact NT|]. destruct e as [k c]. cbn [fst] in B. destruct I as [I|I]; [left|right].
        * destruct (over_term u x a k c WX SU IX OA I) as (k' & c' & J & EJ). exists k', c'. split; [exact J|]. rewrite EJ. exact B.
        * destruct (over_term u y b k c WY SU IY OB I) as (k' & c' & J & EJ). exists k', c'. split; [exact J|]. rewrite EJ. exact B.
      + do 6 right. exists lg. split; [exact L|]. lia.
Qed.

Lemma impl_ok (x y : series) : wf KO KS CO x -> wf KO KS CO y -> Z.of_nat (len (s_ss x) + len (s_ss y)) <= imax size_t ->
  (forall u, union_of (s_ss x) (s_ss y) u -> match t with None => True | Some t => trunc_exact KS sel lim u t end) ->
  mul_good x y (poly_mul_impl KO CO PO TO E t x y).
Proof.
  intros WX WY SZ TE.
  pose proof (fin_ok x y WX WY TE) as FIN.
  assert (SELF : forall (s : series) u, wf KO KS CO s -> s_ss s = u -> over_u u s s /\ forall Q, vden KS CO s Q = vden KS CO s (fun v => Q (spread (s_ss s) u v))).
  { intros s u W ES. split; [split; [exact W|]; split; [exact ES|]; split; [lia|reflexivity]|]. intros Q. unfold vden, psum. f_equal. f_equal. apply filter_ext_in. intros [k c] I. cbn [fst]. rewrite <- ES. f_equal. symmetry. eapply spread_exps; eauto. }
  unfold poly_mul_impl. destruct (ss_eqb (s_ss x) (s_ss y)) eqn:ES.
  - apply ss_eqb_iff in ES. destruct (SELF x (s_ss x) WX eq_refl) as [OA DA]. destruct (SELF y (s_ss x) WY (eq_sym ES)) as [OB DB].
    apply (FIN (s_ss x)); auto. split; [apply (wf_ss _ _ _ _ WX)|]. intros z. rewrite <- ES. tauto.
  - destruct (merge_symbol_sets_exact (s_ss x) (s_ss y) (wf_ss _ _ _ _ WX) (wf_ss _ _ _ _ WY) SZ) as (u & mx & my & EM & SU & IU & IX & IY & MX & MY & _).
    rewrite EM. cbn [bind]. assert (UN : union_of (s_ss x) (s_ss y) u) by (split; auto).
    assert (CX' : incl (s_ss x) u) by (intros z Iz; apply IU; auto).
    assert (CY' : incl (s_ss y) u) by (intros z Iz; apply IU; auto).
    assert (EX : forall (s : series) m, wf KO KS CO s -> ins_map_ok (len (s_ss s)) m -> insert_all (ins_at m) 0 (s_ss s) = u -> incl (s_ss s) u ->
      (exists a, extend_to KO CO PO TO (tag_default TO) true (fun c => c) u s m = Ok a /\ over_u u s a /\ (forall Q, vden KS CO a Q = vden KS CO s (fun v => Q (spread (s_ss s) u v)))) \/
      ((extend_to KO CO PO TO (tag_default TO) true (fun c => c) u s m = Throw overflow_error \/ extend_to KO CO PO TO (tag_default TO) true (fun c => c) u s m = Throw safe_cast_failure) /\ (unrep KS u s \/ full (s_log2 s) (len (terms s))))).
    { intros s m W MO EI IS. destruct (extend_ok KO KS CO CO PO TO KL CL (fun c => c) eq_refl (fun _ _ => eq_refl) (tag_default TO) true s m u W MO EI SU (or_introl eq_refl)) as [(a & Ea & Wa & Sa & _ & _ & Da & Na)|[EE H]].
      - left. exists a. split; [exact Ea|]. split; [|exact Da]. split; [exact Wa|]. split; [exact Sa|]. split; [exact Na|]. intros ws.
        rewrite !coef_nden. unfold nden at 1. rewrite Da, Sa. apply (vden_spread KS CO u u s (fun x => vec_eqb x ws) IS).
      - right. split; [exact EE|]. exact H. }
    pose proof (EX x mx WX MX IX CX') as EXX. pose proof (EX y my WY MY IY CY') as EXY.
    assert (ERX : forall f : series -> res series, (extend_to KO CO PO TO (tag_default TO) true (fun c => c) u x mx = Throw overflow_error \/ extend_to KO CO PO TO (tag_default TO) true (fun c => c) u x mx = Throw safe_cast_failure) -> (unrep KS u x \/ full (s_log2 x) (len (terms x))) ->
      mul_good x y (bind (extend_to KO CO PO TO (tag_default TO) true (fun c => c) u x mx) f)).
    { intros f H1 H2. exists u. split; [exact UN|]. right. split; [destruct H1 as [H1|H1]; rewrite H1; cbn [bind]; auto|]. tauto. }
    assert (ERY : forall f : series -> res series, (extend_to KO CO PO TO (tag_default TO) true (fun c => c) u y my = Throw overflow_error \/ extend_to KO CO PO TO (tag_default TO) true (fun c => c) u y my = Throw safe_cast_failure) -> (unrep KS u y \/ full (s_log2 y) (len (terms y))) ->
      mul_good x y (bind (extend_to KO CO PO TO (tag_default TO) true (fun c => c) u y my) f)).
    { intros f H1 H2. exists u. split; [exact UN|]. right. split; [destruct H1 as [H1|H1]; rewrite H1; cbn [bind]; auto|]. tauto. }
    assert (BOTH : mul_good x y (a <- extend_to KO CO PO TO (tag_default TO) true (fun c => c) u x mx ;; b <- extend_to KO CO PO TO (tag_default TO) true (fun c => c) u y my ;; poly_mul_identical_ss KO CO PO TO E t a b)).
    { destruct EXX as [(a & Ea & Oa & Da)|[H1 H2]]; [|apply ERX; assumption]. rewrite Ea. cbn [bind].
      destruct EXY as [(b & Eb & Ob & Db)|[H1 H2]]; [|apply ERY; assumption]. rewrite Eb. cbn [bind]. apply (FIN u); auto. }
    destruct mx as [|p1 mx'], my as [|p2 my']; cbn [map_empty]; try exact BOTH.
    + destruct EXY as [(b & Eb & Ob & Db)|[H1 H2]]; [|apply ERY; assumption]. rewrite Eb. cbn [bind].
      destruct (SELF x u WX) as [OA DA]; [exact (eq_trans (eq_sym (insert_nil _ 0)) IX)|]. apply (FIN u); auto.
    + destruct EXX as [(a & Ea & Oa & Da)|[H1 H2]]; [|apply ERX; assumption]. rewrite Ea. cbn [bind].
      destruct (SELF y u WY) as [OB DB]; [exact (eq_trans (eq_sym (insert_nil _ 0)) IY)|]. apply (FIN u); auto.
Qed.

Lemma kept_comm us v w : kept us v w = kept us w v.
Proof. unfold kept. destruct t; [|reflexivity]. rewrite Z.add_comm. reflexivity. Qed.

Lemma mul_good_swap (x y : series) r : mul_good y x r -> mul_good x y r.
Proof.
  intros (u & [SU IU] & H). exists u. split; [split; [exact SU|intros z; rewrite IU; tauto]|]. 
  assert (PS : forall a b : series, product_unrep KS u a b -> product_unrep KS u b a).
  { intros a b (p & q & Ip & Iq & B). exists q, p. split; [exact Iq|]. split; [exact Ip|]. cbn zeta in *. rewrite vadd_comm, Z.add_comm. exact B. }
  destruct H as [(s & ER & W & SR & TR & NP & NU & D & L)|[ER B]].
  - left. exists s. split; [exact ER|]. split; [exact W|]. split; [exact SR|]. split; [exact TR|]. split; [intros P; apply NP, PS, P|]. split; [tauto|]. split; [|lia].
    intros us Q SUS IUS. rewrite D by auto. rewrite (bil_swap CO CL). apply bil_F. intros a b _ _. rewrite kept_comm, vadd_comm. reflexivity.
  - right. split; [exact ER|]. assert (PS' := PS y x). rewrite Nat.mul_comm. tauto.
Qed.

Theorem switch_ok (x y : series) : wf KO KS CO x -> wf KO KS CO y -> Z.of_nat (len (s_ss x) + len (s_ss y)) <= imax size_t ->
  (forall u, union_of (s_ss x) (s_ss y) u -> match t with None => True | Some t => trunc_exact KS sel lim u t end) ->
  mul_good x y (poly_mul_switch KO CO PO TO E t x y).
Proof.
  intros WX WY SZ TE. unfold poly_mul_switch. destruct (_ <=? _)%nat; [apply impl_ok; auto|]. apply mul_good_swap. apply impl_ok; auto; [rewrite Nat.add_comm; exact SZ|].
  intros u [SU IU]. apply TE. split; [exact SU|]. intros z. rewrite IU. tauto.
Qed.

(** The coefficient of the product. *)
Lemma bil_prod_coef us (x y : series) ws : bil CO (fun v w => vec_eqb (vadd v w) ws) (vt KS us x) (vt KS us y) = prod_coef KS CO us x y ws.
Proof.
  unfold bil, prod_coef, vt. rewrite list_prod_map. f_equal. induction (list_prod (terms x) (terms y)) as [|p l IH]; [reflexivity|]. cbn [map filter fst snd]. destruct (vec_eqb _ _); cbn [map fst snd]; rewrite IH; reflexivity.
Qed.
Lemma bil_false (l1 l2 : list (list Z * C)) F : (forall a b, In a l1 -> In b l2 -> F (fst a) (fst b) = false) -> bil CO F l1 l2 = c_zero CO.
Proof.
  intros H. unfold bil. assert (X : filter (fun p => F (fst (fst p)) (fst (snd p))) (list_prod l1 l2) = []); [|rewrite X; reflexivity].
  rewrite (filter_ext_in _ (fun _ => false)); [induction (list_prod l1 l2); [reflexivity|assumption]|].
  intros [a b] I. apply in_prod_iff in I as [Ia Ib]. apply H; auto.
Qed.
Lemma bil_kept us (x y : series) ws : 
  bil CO (fun v w => kept us v w && vec_eqb (vadd v w) ws) (vt KS us x) (vt KS us y) =
  if (match t with None => true | Some _ => degree_of sel us ws <=? lim end) then prod_coef KS CO us x y ws else c_zero CO.
Proof.
  assert (L : forall (s : series) a, In a (vt KS us s) -> len (fst a) = len us). { intros s a I. unfold vt in I. apply in_map_iff in I as (e & <- & _). apply spread_len. }
  rewrite <- bil_prod_coef. unfold kept. destruct t; [|apply bil_F; reflexivity].
  destruct (degree_of sel us ws <=? lim) eqn:EL.
  - apply bil_F. intros a b Ia Ib. destruct (vec_eqb (vadd (fst a) (fst b)) ws) eqn:EV; [|apply andb_false_r]. apply vec_eqb_iff in EV. rewrite <- degree_vadd, EV, EL by (eapply L; eauto). reflexivity.
  - apply bil_false. intros a b Ia Ib. destruct (vec_eqb (vadd (fst a) (fst b)) ws) eqn:EV; [|apply andb_false_r]. apply vec_eqb_iff in EV. rewrite <- degree_vadd, EV, EL by (eapply L; eauto). reflexivity.
Qed.
End Mul.
