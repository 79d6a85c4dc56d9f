(** Formal sums of terms over coefficients without zero divisors: leading terms (for C98). *)
From Coq Require Import ZArith List Bool String Arith Sorted Permutation Lia Ring Ring_theory.
From Verif Require Import Base IntModel SymModel SymSpec SymProofs PMonSpec KeyOps SeriesModel SeriesSpec SeriesProofs Lin SeriesEval SeriesProofs7 PolyModel PolySpec PolyProofs7 PolyProofs8 PolyProofs9 PowProofs PowProofs2 DiffProofs IntegProofs SeriesProofs4.
Import ListNotations.
Open Scope Z_scope.
Local Notation len := List.length.

(** ** Lexicographic order on lists of integers of the same length *)
Fixpoint llt (v w : list Z) : Prop :=
  match v, w with a :: v', b :: w' => a < b \/ (a = b /\ llt v' w') | _, _ => False end.
Lemma llt_irrefl : forall v, ~ llt v v.
Proof. induction v as [|a v IH]; cbn; [auto|]. intros [H|[_ H]]; [lia|auto]. Qed.
Lemma llt_trans : forall u v w, llt u v -> llt v w -> llt u w.
Proof. induction u as [|a u IH]; intros [|b v] [|c w]; cbn; try tauto. intros [H|[-> H]] [H'|[-> H']]; [left; lia|left; lia|left; lia|right; split; [reflexivity|eauto]]. Qed.
Lemma llt_total : forall v w, len v = len w -> v = w \/ llt v w \/ llt w v.
Proof.
  induction v as [|a v IH]; intros [|b w] L; try discriminate L; [left; reflexivity|]. cbn. destruct (Z.lt_trichotomy a b) as [H|[-> |H]]; [auto| |auto].
  destruct (IH w ltac:(cbn in L; lia)) as [-> |[H|H]]; auto.
Qed.
Lemma vadd_cons a v b w : vadd (a :: v) (b :: w) = a + b :: vadd v w. Proof. reflexivity. Qed.
Lemma llt_vadd : forall v v' w w', len v = len v' -> len w = len v -> len w' = len v -> llt v v' -> (w = w' \/ llt w w') -> llt (vadd v w) (vadd v' w').
Proof.
  induction v as [|a v IH]; intros [|a' v'] [|b w] [|b' w'] L1 L2 L3 H H'; try discriminate; [destruct H|]. rewrite !vadd_cons. cbn [llt] in *. cbn in L1, L2, L3.
  assert (B : b <= b' /\ (b = b' -> w = w' \/ llt w w')). { destruct H' as [H'|[H'|[-> H']]]; [apply (f_equal (fun l => (hd 0 l, tl l))) in H'; cbn in H'; split; [apply (f_equal fst) in H'; cbn in H'; lia|intros _; left; apply (f_equal snd) in H'; exact H']|split; [lia|intros; lia]|split; [lia|auto]]. }
  destruct B as [B1 B2]. destruct H as [H|[-> H]]; [left; lia|]. destruct (Z.eq_dec b b') as [-> |N]; [right; split; [reflexivity|apply IH; auto; lia]|left; lia].
Qed.

Lemma vadd_vminus : forall a b : list Z, len a = len b -> vadd b (vminus a b) = a.
Proof. induction a as [|x a IH]; intros [|y b] L; try discriminate L; [reflexivity|]. cbn in L. change (vminus (x :: a) (y :: b)) with (x - y :: vminus a b). rewrite vadd_cons, IH by lia. f_equal. lia. Qed.
Lemma vminus_vadd : forall a b : list Z, len a = len b -> vminus (vadd a b) a = b.
Proof. induction a as [|x a IH]; intros [|y b] L; try discriminate L; [reflexivity|]. cbn in L. rewrite vadd_cons. change (vminus (x + y :: vadd a b) (x :: a)) with (x + y - x :: vminus (vadd a b) a). rewrite IH by lia. f_equal. lia. Qed.

Section Dom.
Context {C : Type} (CO : cf_ops C) (CL : cf_laws CO).
Notation "0c" := (c_zero CO).
Infix "+c" := (c_add CO) (at level 50, left associativity).
Infix "*c" := (c_mul CO) (at level 40, left associativity).
Add Ring CringDom : (cl_ring _ CL).
Notation vterm := (list Z * C)%type.
Notation at_ v l := (psum CO (fun x => vec_eqb x v) l).
Context (ND : forall a b, a *c b = 0c -> a = 0c \/ b = 0c).
Context (us : symbol_set) (sel : string -> bool).
Notation wt := (degree_of sel us).
Notation ofl L := (forall e, In e L -> List.length (fst e) = List.length us) (only parsing).

(** The leading vector of a formal sum: the greatest one with a nonzero coefficient. *)
Definition vlt (v w : list Z) : Prop := llt (wt v :: v) (wt w :: w).
Definition leads (L : list vterm) (v : list Z) : Prop := at_ v L <> 0c /\ forall w, at_ w L <> 0c -> w = v \/ vlt w v.

Lemma c_dec (c : C) : c = 0c \/ c <> 0c.
Proof. destruct (c_is_zero CO c) eqn:E; [left; apply (cl_zero _ CL); exact E|right; intros H; apply (cl_zero _ CL) in H; congruence]. Qed.
Lemma at_in v (L : list vterm) : at_ v L <> 0c -> In v (map fst L).
Proof. intros N. destruct (in_dec (list_eq_dec Z.eq_dec) v (map fst L)) as [I|I]; [exact I|]. elim N. apply (psum_none CO CL). exact I. Qed.
Lemma at_len v (L : list vterm) : ofl L -> at_ v L <> 0c -> len v = len us.
Proof. intros H N. apply at_in in N. apply in_map_iff in N as (e & <- & I). auto. Qed.

Lemma vlt_cases v w : len v = len us -> len w = len us -> v = w \/ vlt v w \/ vlt w v.
Proof. intros L1 L2. destruct (llt_total (wt v :: v) (wt w :: w)) as [H|H]; [cbn; congruence| |right; exact H]. left. apply (f_equal (@tl Z)) in H. exact H. Qed.
Lemma vlt_wt v w : vlt v w -> wt v <= wt w.
Proof. unfold vlt. cbn. lia. Qed.

Lemma lead_exists (L : list vterm) : ofl L -> ~ same CO L [] -> exists v, leads L v.
Proof.
  intros HL NS.
  assert (X : forall l : list (list Z), (forall v, In v l -> len v = len us) ->
    (forall v, In v l -> at_ v L = 0c) \/ exists v, In v l /\ at_ v L <> 0c /\ forall w, In w l -> at_ w L <> 0c -> w = v \/ vlt w v).
  { induction l as [|v l IH]; intros H; [left; intros v []|]. destruct (IH ltac:(intros; apply H; right; auto)) as [A|(m & I & N & M)].
    - destruct (c_dec (at_ v L)) as [E|E]; [left; intros w [<- |I]; auto|right]. exists v. split; [left; reflexivity|]. split; [exact E|]. intros w [<- |I] NZ; [auto|]. elim NZ. auto.
    - right. destruct (c_dec (at_ v L)) as [E|E]; [exists m; split; [right; exact I|]; split; [exact N|]; intros w [<- |J] NZ; [contradiction|auto]|].
      destruct (vlt_cases v m ltac:(apply H; left; auto) ltac:(apply H; right; auto)) as [-> |[Q|Q]].
      + exists m. split; [right; exact I|]. split; [exact N|]. intros w [<- |J] NZ; auto.
      + exists m. split; [right; exact I|]. split; [exact N|]. intros w [<- |J] NZ; auto.
      + exists v. split; [left; reflexivity|]. split; [exact E|]. intros w [<- |J] NZ; [auto|]. destruct (M w J NZ) as [-> |R]; [right; exact Q|]. right. exact (llt_trans _ _ _ R Q). }
  destruct (X (map fst L)) as [A|(v & _ & N & M)].
  - intros v I. apply in_map_iff in I as (e & <- & I). auto.
  - elim NS. apply (same_eqb CO CL). intros v. destruct (c_dec (at_ v L)) as [E|E]; [exact E|]. rewrite A by (apply at_in; exact E). reflexivity.
  - exists v. split; [exact N|]. intros w NZ. apply M; [apply at_in; exact NZ|exact NZ].
Qed.

(** A formal sum as the sum over its distinct vectors. *)
Definition norm (L : list vterm) : list vterm := map (fun v => (v, at_ v L)) (nodup (list_eq_dec Z.eq_dec) (map fst L)).
Lemma at_norm_list (L : list vterm) w : forall l, NoDup l -> at_ w (map (fun v => (v, at_ v L)) l) = if in_dec (list_eq_dec Z.eq_dec) w l then at_ w L else 0c.
Proof.
  induction l as [|v l IH]; intros N; [reflexivity|]. inversion_clear N as [|? ? NI N']. cbn [map]. rewrite (psum_cons CO CL), IH by exact N'. cbn [fst snd]. destruct (vec_eqb v w) eqn:E; cbn [ifP].
  - apply vec_eqb_iff in E. subst v. destruct (in_dec _ w l) as [I|_]; [contradiction|]. destruct (in_dec _ w (w :: l)) as [_|I]; [ring|]. elim I. left. reflexivity.
  - destruct (in_dec _ w l) as [I|I], (in_dec _ w (v :: l)) as [J|J]; try ring; [elim J; right; exact I|]. destruct J as [-> |J]; [|contradiction]. rewrite (proj2 (vec_eqb_iff w w) eq_refl) in E. discriminate E.
Qed.
Lemma norm_same (L : list vterm) : same CO L (norm L).
Proof.
  apply (same_eqb CO CL). intros w. unfold norm. rewrite at_norm_list by apply NoDup_nodup. destruct (in_dec _ w _) as [I|I]; [reflexivity|]. apply (psum_none CO CL). intros J. apply I. apply nodup_In. exact J.
Qed.
Lemma norm_len (L : list vterm) : ofl L -> ofl (norm L).
Proof. intros H e I. unfold norm in I. apply in_map_iff in I as (v & <- & I). cbn [fst]. apply nodup_In in I. apply in_map_iff in I as (e & <- & I). auto. Qed.

Lemma at_same v (L L' : list vterm) : same CO L L' -> at_ v L = at_ v L'. Proof. intros H. apply H. Qed.

(** The leading vector of a product is the sum of the leading vectors, with the product of the coefficients. *)
Lemma lead_prod (X Y : list vterm) v w : ofl X -> ofl Y -> leads X v -> leads Y w ->
  leads (vprod CO X Y) (vadd v w) /\ at_ (vadd v w) (vprod CO X Y) = at_ v X *c at_ w Y.
Proof.
  intros LX LY [NV MV] [NW MW]. pose proof (at_len v X LX NV) as Lv. pose proof (at_len w Y LY NW) as Lw. assert (Lvw : len (vadd v w) = len us) by (apply vadd_len; congruence).
  assert (SP : same CO (vprod CO X Y) (vprod CO (norm X) Y)) by (apply (same_prod CO CL); [apply norm_same|apply same_refl]).
  assert (PS : forall z, len z = len us -> at_ z (vprod CO X Y) = csum CO (map (fun e => snd e *c at_ (vminus z (fst e)) Y) (norm X))).
  { intros z Lz. rewrite (SP _). apply (psum_vprod_minus CO CL); intros e I; rewrite Lz; [apply norm_len in I; auto|auto]. }
  assert (KEY : forall e z, In e (norm X) -> len z = len us -> snd e *c at_ (vminus z (fst e)) Y <> 0c -> exists y, z = vadd (fst e) y /\ len y = len us /\ (fst e = v \/ vlt (fst e) v) /\ (y = w \/ vlt y w)).
  { intros e z I Lz NZ. pose proof (norm_len X LX e I) as Le. exists (vminus z (fst e)). assert (NE : snd e <> 0c) by (intros E; apply NZ; rewrite E; ring). assert (NY : at_ (vminus z (fst e)) Y <> 0c) by (intros E; apply NZ; rewrite E; ring).
    split; [symmetry; apply vadd_vminus; congruence|]. split; [rewrite vminus_len; congruence|]. split; [|apply MW; exact NY]. apply MV. unfold norm in I. apply in_map_iff in I as (x & <- & _). exact NE. }
  assert (CMP : forall a b, len a = len us -> len b = len us -> (a = v \/ vlt a v) -> (b = w \/ vlt b w) -> (a = v /\ b = w) \/ vlt (vadd a b) (vadd v w)).
  { intros a b La Lb HA HB. unfold vlt. rewrite !degree_vadd by congruence. rewrite <- !vadd_cons. destruct HA as [-> |HA].
    - destruct HB as [-> |HB]; [auto|right]. rewrite (vadd_comm (wt v :: v)), (vadd_comm (wt v :: v) (wt w :: w)). apply llt_vadd; cbn [List.length]; auto; congruence.
    - right. apply llt_vadd; cbn [List.length]; try congruence; [exact HA|]. destruct HB as [-> |HB]; auto. }
  assert (AT : at_ (vadd v w) (vprod CO X Y) = at_ v X *c at_ w Y).
  { rewrite PS by exact Lvw. assert (ZR : forall e, In e (norm X) -> fst e <> v -> snd e *c at_ (vminus (vadd v w) (fst e)) Y = 0c).
    { intros e I NE. destruct (c_dec (snd e *c at_ (vminus (vadd v w) (fst e)) Y)) as [E|E]; [exact E|]. exfalso. destruct (KEY e _ I Lvw E) as (y & EQ & Ly & HA & HB). destruct (CMP (fst e) y (norm_len X LX e I) Ly HA HB) as [[E1 _]|Q]; [contradiction|]. rewrite <- EQ in Q. elim (llt_irrefl _ Q). }
    assert (IV : In v (nodup (list_eq_dec Z.eq_dec) (map fst X))) by (apply nodup_In, at_in; exact NV). pose proof (NoDup_nodup (list_eq_dec Z.eq_dec) (map fst X)) as NDX. unfold norm in *. revert IV NDX ZR. generalize (nodup (list_eq_dec Z.eq_dec) (map fst X)) as l.
    assert (OTH : forall l : list (list Z), ~ In v l -> (forall e, In e (map (fun v => (v, at_ v X)) l) -> fst e <> v -> snd e *c at_ (vminus (vadd v w) (fst e)) Y = 0c) ->
       csum CO (map (fun e => snd e *c at_ (vminus (vadd v w) (fst e)) Y) (map (fun v => (v, at_ v X)) l)) = 0c).
    { induction l as [|a l IH]; intros NI H; [reflexivity|]. cbn [map csum fold_right]. rewrite H by (try (left; reflexivity); cbn [fst]; intros ->; apply NI; left; reflexivity). change (0c +c csum CO (map (fun e => snd e *c at_ (vminus (vadd v w) (fst e)) Y) (map (fun v => (v, at_ v X)) l)) = 0c). rewrite IH; [ring|intros J; apply NI; right; exact J|]. intros e J. apply H. right. exact J. }
    induction l as [|a l IH]; intros IV NDX ZR; [destruct IV|]. inversion_clear NDX as [|? ? NI ND']. cbn [map csum fold_right]. fold (csum CO (map (fun e => snd e *c at_ (vminus (vadd v w) (fst e)) Y) (map (fun v => (v, at_ v X)) l))).
    destruct (list_eq_dec Z.eq_dec a v) as [-> |NA].
    - rewrite OTH by (auto; intros e J; apply ZR; right; exact J). cbn [fst snd]. rewrite vminus_vadd by congruence. ring.
    - rewrite (ZR (a, at_ a X)) by (try (left; reflexivity); exact NA). rewrite IH; [ring| |exact ND'|intros e J; apply ZR; right; exact J]. destruct IV as [E|IV]; [contradiction|exact IV]. }
  split; [|exact AT]. split.
  - rewrite AT. intros E. destruct (ND _ _ E); contradiction.
  - intros z NZ. assert (Lz : len z = len us) by (apply (at_len z (vprod CO X Y)); [apply (vprod_len CO); auto|exact NZ]). rewrite PS in NZ by exact Lz.
    assert (EX : exists e, In e (norm X) /\ snd e *c at_ (vminus z (fst e)) Y <> 0c).
    { revert NZ. generalize (norm X) as l. induction l as [|e l IH]; intros NZ; [elim NZ; reflexivity|]. cbn [map csum fold_right] in NZ. destruct (c_dec (snd e *c at_ (vminus z (fst e)) Y)) as [E|E]; [|exists e; split; [left; reflexivity|exact E]].
      destruct IH as (e' & I & N); [|exists e'; split; [right; exact I|exact N]]. intros Q. apply NZ. rewrite E. fold (csum CO (map (fun e => snd e *c at_ (vminus z (fst e)) Y) l)). rewrite Q. ring. }
    destruct EX as (e & I & N). destruct (KEY e z I Lz N) as (y & -> & Ly & HA & HB). destruct (CMP (fst e) y (norm_len X LX e I) Ly HA HB) as [[-> ->]|Q]; auto.
Qed.

Lemma prod_nonzero (X Y : list vterm) : ofl X -> ofl Y -> same CO (vprod CO X Y) [] -> same CO X [] \/ same CO Y [].
Proof.
  intros LX LY S. assert (D : forall L : list vterm, ofl L -> same CO L [] \/ ~ same CO L []).
  { intros L HL. assert (Q : (forall v, In v (map fst L) -> at_ v L = 0c) \/ exists v, at_ v L <> 0c).
    { generalize (map fst L) as l. induction l as [|v l IH]; [left; intros v []|]. destruct (c_dec (at_ v L)) as [E|E]; [|right; eauto]. destruct IH as [H|H]; [left|right; exact H]. intros w [<- |I]; auto. }
    destruct Q as [Q|[v Q]]; [left|right; intros H; apply Q; apply (H (fun x => vec_eqb x v))]. apply (same_eqb CO CL). intros v. destruct (c_dec (at_ v L)) as [E|E]; [exact E|]. rewrite Q by (apply at_in; exact E). reflexivity. }
  destruct (D X LX) as [H|HX]; [auto|]. destruct (D Y LY) as [H|HY]; [auto|]. exfalso.
  destruct (lead_exists X LX HX) as [v HV], (lead_exists Y LY HY) as [w HW]. destruct (lead_prod X Y v w LX LY HV HW) as [[N _] _]. apply N. apply (S (fun x => vec_eqb x (vadd v w))).
Qed.

(** The largest degree of a monomial with a nonzero coefficient. *)
Definition top (L : list vterm) (d : Z) : Prop := (exists v, at_ v L <> 0c /\ wt v = d) /\ forall v, at_ v L <> 0c -> wt v <= d.
Lemma top_lead (L : list vterm) v : leads L v -> top L (wt v).
Proof. intros [N M]. split; [eauto|]. intros w NZ. destruct (M w NZ) as [-> |H]; [lia|apply vlt_wt; exact H]. Qed.
Lemma top_unique (L : list vterm) d d' : top L d -> top L d' -> d = d'.
Proof. intros [(v & N & E) M] [(v' & N' & E') M']. apply M' in N. apply M in N'. lia. Qed.
Lemma top_same (L L' : list vterm) d : same CO L L' -> top L d -> top L' d.
Proof. intros S [(v & N & E) M]. split; [exists v; split; [rewrite <- (S _); exact N|exact E]|]. intros w NZ. apply M. rewrite (S _). exact NZ. Qed.
Lemma top_nonzero (L : list vterm) d : top L d -> ~ same CO L [].
Proof. intros [(v & N & _) _] S. apply N. apply (S (fun x => vec_eqb x v)). Qed.
Lemma top_prod (X Y : list vterm) d e : ofl X -> ofl Y -> top X d -> top Y e -> top (vprod CO X Y) (d + e).
Proof.
  intros LX LY TX TY. destruct (lead_exists X LX (top_nonzero X d TX)) as [v HV], (lead_exists Y LY (top_nonzero Y e TY)) as [w HW].
  rewrite (top_unique X d _ TX (top_lead X v HV)), (top_unique Y e _ TY (top_lead Y w HW)). destruct (lead_prod X Y v w LX LY HV HW) as [H _]. rewrite <- degree_vadd; [apply top_lead; exact H| |].
  - apply (at_len v X LX). apply HV.
  - apply (at_len w Y LY). apply HW.
Qed.
End Dom.
