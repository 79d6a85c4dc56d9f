(** Products of lists of terms; algebra of the product. *)
From Coq Require Import ZArith List Bool String Arith Sorted Permutation Lia Ring Ring_theory.
From Verif Require Import Base SymModel SymSpec PMonSpec PMonProofs KeyOps SeriesModel SeriesSpec SeriesProofs SeriesProofs2 SeriesProofs4 SeriesProofs5 Lin EvalSpec SeriesEval SeriesProofs7 PolySpec PolyProofs7.
Import ListNotations.
Open Scope Z_scope.
Local Notation len := List.length.

Lemma vadd_assoc a b c : vadd (vadd a b) c = vadd a (vadd b c).
Proof.
  unfold vadd. revert b c. induction a as [|x a IH]; intros [|y b] [|z c]; cbn; try reflexivity. rewrite IH. f_equal. lia.
Qed.

Section VP.
Context {C : Type} (CO : cf_ops C) (CL : cf_laws CO).
Notation "0c" := (c_zero CO).
Infix "+c" := (c_add CO) (at level 50, left associativity).
Infix "*c" := (c_mul CO) (at level 40, left associativity).
Add Ring Cring9 : (cl_ring CO CL).
Notation vterm := (list Z * C)%type.

(** The products of all the pairs of terms. *)
Definition vmulp (a b : vterm) : vterm := (vadd (fst a) (fst b), snd a *c snd b).
Definition vprod (l1 l2 : list vterm) : list vterm := map (fun p => vmulp (fst p) (snd p)) (list_prod l1 l2).

Lemma psum_vprod Q l1 l2 : psum CO Q (vprod l1 l2) = bil CO (fun v w => Q (vadd v w)) l1 l2.
Proof.
  unfold vprod, bil, psum. f_equal. induction (list_prod l1 l2) as [|p l IH]; [reflexivity|]. cbn [map filter vmulp fst snd]. destruct (Q _); cbn [map snd]; rewrite IH; reflexivity.
Qed.

Lemma vprod_cons a l1 l2 : vprod (a :: l1) l2 = map (vmulp a) l2 ++ vprod l1 l2.
Proof. unfold vprod. cbn [list_prod]. rewrite map_app, map_map. reflexivity. Qed.
Lemma vprod_app a b l2 : vprod (a ++ b) l2 = vprod a l2 ++ vprod b l2.
Proof. induction a as [|x a IH]; [reflexivity|]. cbn [app]. rewrite !vprod_cons, IH, app_assoc. reflexivity. Qed.
Lemma vmulp_assoc a b c : vmulp (vmulp a b) c = vmulp a (vmulp b c).
Proof. unfold vmulp. cbn [fst snd]. f_equal; [apply vadd_assoc|ring]. Qed.
Lemma vprod_map a l1 l2 : vprod (map (vmulp a) l1) l2 = map (vmulp a) (vprod l1 l2).
Proof.
  induction l1 as [|x l1 IH]; [reflexivity|]. cbn [map]. rewrite !vprod_cons, map_app, IH, map_map. f_equal. apply map_ext. intros b. apply vmulp_assoc.
Qed.
Lemma vprod_assoc a b c : vprod (vprod a b) c = vprod a (vprod b c).
Proof. induction a as [|x a IH]; [reflexivity|]. rewrite !vprod_cons, vprod_app, vprod_map, IH. reflexivity. Qed.

(** Lists of terms with the same sums. *)
Definition same (l1 l2 : list vterm) : Prop := forall Q, psum CO Q l1 = psum CO Q l2.
Lemma psum_lin Q (l : list vterm) : psum CO Q l = lin 0c (c_add CO) (c_mul CO) (fun c => c) (fun v => if Q v then c_one CO else 0c) l.
Proof. induction l as [|e l IH]; [reflexivity|]. cbn [lin]. rewrite (psum_cons CO CL), IH. destruct (Q (fst e)); cbn [ifP]; ring. Qed.
Lemma same_eqb (l1 l2 : list vterm) : (forall v, psum CO (fun x => vec_eqb x v) l1 = psum CO (fun x => vec_eqb x v) l2) -> same l1 l2.
Proof. intros H Q. rewrite !psum_lin. apply (lin_ext CO _ _ _ _ _ _ (cl_ring CO CL) (list_eq_dec Z.eq_dec) (fun c => c)); auto. Qed.
Lemma same_prod a a' b b' : same a a' -> same b b' -> same (vprod a b) (vprod a' b').
Proof. intros A B Q. rewrite !psum_vprod. apply (bil_ext CO CL); intros v; [apply A|apply B]. Qed.
Lemma same_swap a b : same (vprod a b) (vprod b a).
Proof. intros Q. rewrite !psum_vprod, (bil_swap CO CL). apply bil_F. intros x y _ _. rewrite vadd_comm. reflexivity. Qed.
Lemma same_refl a : same a a. Proof. intros Q. reflexivity. Qed.
Lemma same_trans a b c : same a b -> same b c -> same a c. Proof. intros H1 H2 Q. rewrite H1. apply H2. Qed.
Lemma same_sym a b : same a b -> same b a. Proof. intros H Q. symmetry. apply H. Qed.
Lemma same_app a a' b b' : same a a' -> same b b' -> same (a ++ b) (a' ++ b').
Proof. intros A B Q. rewrite !(psum_app CO CL), A, B. reflexivity. Qed.

(** A linear functional, multiplicative on exponents, is multiplicative. *)
Context {V : Type} (vzero vone : V) (va vm vs : V -> V -> V) (vo : V -> V) (VR : ring_theory vzero vone va vm vs vo (@eq V)) (h : C -> V).
Context (h0 : h (c_zero CO) = vzero) (h1 : forall a b, h (c_add CO a b) = va (h a) (h b)) (hm : forall a b, h (c_mul CO a b) = vm (h a) (h b)).
Add Ring Vring9 : VR.
Lemma lin_vprod (w : list Z -> V) l1 l2 : (forall e e' : list Z * C, In e l1 -> In e' l2 -> w (vadd (fst e) (fst e')) = vm (w (fst e)) (w (fst e'))) ->
  lin vzero va vm h w (vprod l1 l2) = vm (lin vzero va vm h w l1) (lin vzero va vm h w l2).
Proof.
  intros W. induction l1 as [|a l1 IH]; [cbn; ring|]. rewrite vprod_cons, (lin_app _ _ _ _ _ _ VR), IH by (intros e e' I J; apply W; [right; exact I|exact J]). cbn [lin].
  assert (X : lin vzero va vm h w (map (vmulp a) l2) = vm (vm (h (snd a)) (w (fst a))) (lin vzero va vm h w l2)).
  { clear IH. induction l2 as [|b l2 IH2]; [cbn; ring|]. cbn [map lin vmulp fst snd].
    rewrite IH2 by (intros e e' I J; apply W; [exact I|right; exact J]). rewrite hm, (W a b) by (left; reflexivity). ring. }
  rewrite X. ring.
Qed.
End VP.
