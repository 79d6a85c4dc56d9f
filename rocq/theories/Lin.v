(** Linear functionals of finite formal sums: they depend only on the sums of coefficients. *)
From Coq Require Import ZArith List Bool String Arith Permutation Lia Ring Ring_theory.
From Verif Require Import Base KeyOps SeriesSpec.
Import ListNotations.

Section Lin.
Context {A C V : Type} (CO : cf_ops C) (vzero vone : V) (vadd vmul vsub : V -> V -> V) (vopp : V -> V).
Hypothesis VR : ring_theory vzero vone vadd vmul vsub vopp (@eq V).
Hypothesis dec : forall a b : A, {a = b} + {a <> b}.
Variable h : C -> V.
Hypothesis h0 : h (c_zero CO) = vzero.
Hypothesis h1 : forall a b, h (c_add CO a b) = vadd (h a) (h b).
Add Ring Vring : VR.

(** Sum of h(c) * w(a) over the elements (a, c) of the list. *)
Fixpoint lin (w : A -> V) (l : list (A * C)) : V :=
  match l with
  | [] => vzero
  | e :: l' => vadd (vmul (h (snd e)) (w (fst e))) (lin w l')
  end.

Lemma lin_app w a b : lin w (a ++ b) = vadd (lin w a) (lin w b).
Proof. induction a as [|e a IH]; cbn [app lin]; [ring|]. rewrite IH. ring. Qed.

Lemma lin_left w l : forall acc, fold_left (fun acc e => vadd acc (vmul (w (fst e)) (h (snd e)))) l acc = vadd acc (lin w l).
Proof. induction l as [|e l IH]; intros acc; cbn [fold_left lin]; [ring|]. rewrite IH. ring. Qed.

Definition eqb (a b : A) : bool := if dec a b then true else false.

Fixpoint group (w : A -> V) (ds : list A) (l : list (A * C)) : V :=
  match ds with
  | [] => vzero
  | d :: ds' => vadd (vmul (h (psum CO (fun a => eqb a d) l)) (w d)) (group w ds' l)
  end.

Lemma group_nil w ds : group w ds [] = vzero.
Proof. induction ds as [|d ds IH]; cbn [group]; [reflexivity|]. unfold psum. cbn. rewrite h0, IH. ring. Qed.

Lemma group_cons w ds e l : NoDup ds ->
  group w ds (e :: l) = vadd (if in_dec dec (fst e) ds then vmul (h (snd e)) (w (fst e)) else vzero) (group w ds l).
Proof.
  induction ds as [|d ds IH]; intros N; cbn [group]; [cbn; ring|]. inversion N; subst. rewrite IH by assumption. clear IH.
  unfold psum. cbn [filter]. unfold eqb at 1. destruct (dec (fst e) d) as [E|E].
  - cbn [map]. unfold csum. cbn [fold_right]. rewrite h1.
    destruct (in_dec dec (fst e) (d :: ds)) as [I|I]; [|elim I; left; auto]. destruct (in_dec dec (fst e) ds) as [J|J]; [elim H1; rewrite <- E; exact J|]. rewrite E. ring.
  - destruct (in_dec dec (fst e) (d :: ds)) as [I|I], (in_dec dec (fst e) ds) as [J|J]; try ring.
    + exfalso. destruct I as [I|I]; [apply E; auto|contradiction].
    + elim I. right. exact J.
Qed.

Lemma lin_group w ds l : NoDup ds -> (forall e, In e l -> In (fst e) ds) -> lin w l = group w ds l.
Proof.
  intros N. induction l as [|e l IH]; intros H; cbn [lin]; [symmetry; apply group_nil|]. rewrite group_cons by exact N.
  destruct (in_dec dec (fst e) ds) as [I|I]; [|elim I; apply H; left; reflexivity]. rewrite IH; [reflexivity|]. intros x Ix. apply H. right. exact Ix.
Qed.

(** A linear functional depends only on the sums of coefficients. *)
Theorem lin_ext w l1 l2 : (forall a, psum CO (fun x => eqb x a) l1 = psum CO (fun x => eqb x a) l2) -> lin w l1 = lin w l2.
Proof.
  intros H. set (ds := nodup dec (map fst (l1 ++ l2))).
  assert (N : NoDup ds) by apply NoDup_nodup.
  rewrite (lin_group w ds l1 N), (lin_group w ds l2 N).
  - clear N. induction ds as [|d ds IH]; cbn [group]; [reflexivity|]. rewrite H, IH. reflexivity.
  - intros e I. apply nodup_In, in_map, in_or_app. auto.
  - intros e I. apply nodup_In, in_map, in_or_app. auto.
Qed.
End Lin.
