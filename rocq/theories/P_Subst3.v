(** Property C109, continued: two substitutions, one after the other. *)
From Coq Require Import ZArith List Bool String Arith Sorted Permutation Lia Ring Ring_theory.
From Verif Require Import Base KpackModel KpackSpec IntModel IntSpec SymModel SymSpec SymProofs P_Sym PMonModel PMonSpec KeyOps KeyInst
  SeriesModel SeriesModel2 SeriesSpec SeriesProofs SeriesProofs2 SeriesProofs3 SeriesProofs4 SeriesProofs5 SeriesProofs6 Lin EvalSpec SeriesEval SeriesProofs7 CfInst P_Series P_Series2
  PolyModel PolyModel2 PolySpec PolyProofs7 PolyProofs8 PolyProofs9 P_Poly P_Poly2 PowProofs PowProofs2 P_Pow DiffProofs SubsSpec SubsProofs P_Subs PSSubsSpec PSSubs P_Subst P_Subst2 P_Integ2.
Import ListNotations.
Open Scope Z_scope.
Open Scope res_scope.
Local Notation len := List.length.

Section SC.
Context {K C Tag : Type} (KO : key_ops K) (KS : key_sem K) (CO : cf_ops C) (PO : tbl_policy (K * C)) (TO : tag_ops Tag).
Context (KL : key_laws KO KS) (CL : cf_laws CO) (FN : ks_fits KS []).
Notation series := (series K C Tag).
Notation WF := (wf KO KS CO).
Notation coef := (coef KS CO).
Notation exps s k := (ks_exps KS (List.length (s_ss s)) k).
Notation "0c" := (c_zero CO).
Notation "1c" := (c_one CO).
Infix "+c" := (c_add CO) (at level 50, left associativity).
Infix "*c" := (c_mul CO) (at level 40, left associativity).
Add Ring CringSC : (cl_ring _ CL).
Notation vterm := (list Z * C)%type.
Notation vt := (vt KS).
Notation same := (same CO).
Notation vprod := (vprod CO).


Section H.
Variables (us : symbol_set) (s1 s2 s3 : symbol_map series).
Hypothesis HU : sorted_set us.
Notation one := (f_one CO (len us)).
Notation good := (goodv (C := C) us s2).
(** s3: the values of s1 with s2 substituted in them, and s2 for the other symbols. *)
Hypothesis H3 : forall z, match assoc s1 z with
  | Some u => exists w, assoc s3 z = Some w /\ same (vt us w) (imgs KS CO us s2 (vt us u))
  | None => assoc s3 z = assoc s2 z
  end.
Hypothesis G1 : forall z u, assoc s1 z = Some u -> forall e, In e (vt us u) -> good e.

Lemma good_prod a b : (forall e, In e a -> good e) -> (forall e, In e b -> good e) -> forall e, In e (vprod a b) -> good e.
Proof.
  intros A D e J. unfold PolyProofs9.vprod in J. apply in_map_iff in J as ([p q] & <- & J). apply in_prod_iff in J as [I J]. destruct (A p I) as [L1 X1]. destruct (D q J) as [L2 X2]. cbn [vmulp fst snd].
  split; [cbn [vmulp fst snd]; apply vadd_len; auto|]. intros z u Z. cbn [vmulp fst snd]. rewrite expo_vadd by assumption. specialize (X1 z u Z). specialize (X2 z u Z). lia.
Qed.
Lemma good_one : forall e, In e one -> good e.
Proof. intros e [<-|[]]. cbn [fst]. split; [cbn [fst]; apply repeat_length|]. intros z u _. cbn [fst]. rewrite expo_repeat. lia. Qed.
Lemma good_powl (u : series) n : (forall e, In e (vt us u) -> good e) -> forall e, In e (powl KS CO us u n) -> good e.
Proof. intros H. induction n as [|n IH]; cbn [powl]; [exact good_one|]. apply good_prod; auto. Qed.
Lemma good_pw l e : forall a, In a (pw KS CO us s1 l e) -> good a.
Proof.
  induction l as [|z l IH]; cbn [pw]; [exact good_one|]. destruct (assoc s1 z) as [u|] eqn:A; [|exact IH]. apply good_prod; [|exact IH]. apply good_powl. eapply G1; eauto.
Qed.
Lemma keep_repeat : keep s2 us (repeat 0 (len us)) = repeat 0 (len us).
Proof.
  unfold keep. assert (G : forall l : symbol_set, map (fun z => match assoc s2 z with Some _ => 0 | None => expo us (repeat 0 (len us)) z end) l = repeat 0 (len l)).
  { induction l as [|z l IH]; [reflexivity|]. cbn [map List.length repeat]. rewrite IH, expo_repeat. destruct (assoc s2 z); reflexivity. }
  apply G.
Qed.
Lemma pw_zero l e : (forall z, e z = 0) -> pw KS CO us s2 l e = one.
Proof.
  intros H. induction l as [|z l IH]; cbn [pw]; [reflexivity|]. rewrite IH, H. destruct (assoc s2 z); [|reflexivity]. cbn [Z.to_nat powl]. apply (vprodx_unit CO CL us), lenok_one.
Qed.
Lemma imgs_one : imgs KS CO us s2 one = one.
Proof.
  unfold f_one at 1, imgs. cbn [map List.concat]. rewrite List.app_nil_r. unfold img. cbn [fst snd]. rewrite keep_repeat, pw_zero by (intros z; apply expo_repeat). apply (vprodx_unit CO CL us), lenok_one.
Qed.
Lemma imgs_powl (u w : series) n : (forall e, In e (vt us u) -> good e) -> same (vt us w) (imgs KS CO us s2 (vt us u)) -> same (imgs KS CO us s2 (powl KS CO us u n)) (powl KS CO us w n).
Proof.
  intros G S. induction n as [|n IH]; cbn [powl]; [fold (unit_vt (C := C)); change (same (imgs KS CO us s2 one) one); rewrite imgs_one; apply same_refl|].
  eapply same_trans; [apply (imgs_prod KS CO CL us s2); [apply good_powl; exact G|exact G]|]. apply (same_prod CO CL); [exact IH|apply same_sym; exact S].
Qed.
Lemma compose_pw e e' l : (forall z, In z l -> e' z = match assoc s1 z with Some _ => 0 | None => e z end) ->
  same (vprod (imgs KS CO us s2 (pw KS CO us s1 l e)) (pw KS CO us s2 l e')) (pw KS CO us s3 l e).
Proof.
  induction l as [|z l IH]; intros HE; cbn [pw].
  - rewrite imgs_one, (vprodx_unit CO CL us) by apply lenok_one. apply same_refl.
  - assert (HE' : forall z0, In z0 l -> e' z0 = match assoc s1 z0 with Some _ => 0 | None => e z0 end) by (intros; apply HE; right; auto). specialize (IH HE'). pose proof (HE z (or_introl eq_refl)) as EZ. pose proof (H3 z) as X. destruct (assoc s1 z) as [u|] eqn:A.
    + destruct X as (w & A3 & S). rewrite A3, EZ. assert (L2 : (match assoc s2 z with Some u0 => vprod (powl KS CO us u0 (Z.to_nat 0)) (pw KS CO us s2 l e') | None => pw KS CO us s2 l e' end) = pw KS CO us s2 l e').
      { destruct (assoc s2 z); [|reflexivity]. cbn [Z.to_nat powl]. apply (unit_l CO CL us), pw_lenok. }
      rewrite L2. eapply same_trans; [apply (same_prod CO CL); [apply (imgs_prod KS CO CL us s2); [apply good_powl; eapply G1; eauto|apply good_pw]|apply same_refl]|].
      rewrite (vprod_assoc CO CL). apply (same_prod CO CL); [apply imgs_powl; [eapply G1; eauto|exact S]|exact IH].
    + rewrite X, EZ. destruct (assoc s2 z) as [w|]; [|exact IH].
      rewrite <- (vprod_assoc CO CL). eapply same_trans; [apply (same_prod CO CL); [apply (same_swap CO CL)|apply same_refl]|]. rewrite (vprod_assoc CO CL). apply (same_prod CO CL); [apply same_refl|exact IH].
Qed.
Lemma compose_img v c : len v = len us -> (forall z u, assoc s3 z = Some u -> 0 <= expo us v z) -> same (imgs KS CO us s2 (img KS CO us s1 (v, c))) (img KS CO us s3 (v, c)).
Proof.
  intros L P. unfold img at 1. cbn [fst snd].
  assert (EK : forall z, In z us -> expo us (keep s1 us v) z = match assoc s1 z with Some _ => 0 | None => expo us v z end) by (intros z J; unfold keep; rewrite (expo_map us _ z); destruct (in_dec string_dec z us); [reflexivity|contradiction]).
  assert (Gk : forall e, In e [(keep s1 us v, c)] -> good e).
  { intros e [<-|[]]. cbn [fst]. split; [cbn [fst]; unfold keep; apply map_length|]. intros z u A. cbn [fst]. destruct (in_dec string_dec z us) as [J|J]; [|rewrite SeriesEval.expo_notin by exact J; lia]. rewrite (EK z J). pose proof (H3 z) as X. destruct (assoc s1 z); [lia|]. apply (P z u). rewrite X. exact A. }
  eapply same_trans; [apply (imgs_prod KS CO CL us s2); [apply good_pw|exact Gk]|].
  unfold imgs at 2. cbn [map List.concat]. rewrite List.app_nil_r. unfold img. cbn [fst snd].
  assert (KK : keep s2 us (keep s1 us v) = keep s3 us v).
  { unfold keep at 1 3. apply map_ext_in. intros z J. rewrite (EK z J). pose proof (H3 z) as X. destruct (assoc s1 z) as [u|]; [destruct X as (w & -> & _); destruct (assoc s2 z); reflexivity|]. rewrite X. reflexivity. }
  rewrite KK, <- (vprod_assoc CO CL). apply (same_prod CO CL); [|apply same_refl]. apply compose_pw. exact EK.
Qed.
Lemma compose_imgs l : (forall e, In e l -> goodv (C := C) us s3 e) -> same (imgs KS CO us s2 (imgs KS CO us s1 l)) (imgs KS CO us s3 l).
Proof.
  induction l as [|[v c] l IH]; intros G; [apply same_refl|]. unfold imgs at 2 3. cbn [map List.concat]. rewrite (imgs_app KS CO us s2). apply (same_app CO CL); [|apply IH; intros; apply G; right; auto].
  destruct (G _ (or_introl eq_refl)) as [L P]. apply compose_img; assumption.
Qed.
End H.

(** C109. Two substitutions, one after the other, are the substitution of the first values with the second ones substituted in them, together with the second values of the symbols
    that the first map does not have. *)
Theorem subs_poly_compose : forall E1 E2 E3 E4 B (s1 s2 s3 : symbol_map series) vpow (x r1 r2 r3 : series),
  subst_args KO KS CO E1 B s1 vpow x -> subs_poly KO CO PO TO E1 vpow x s1 = Ok r1 ->
  subst_args KO KS CO E2 B s2 vpow r1 -> subs_poly KO CO PO TO E2 vpow r1 s2 = Ok r2 ->
  subst_args KO KS CO E3 B s3 vpow x -> subs_poly KO CO PO TO E3 vpow x s3 = Ok r3 ->
  (forall z, match assoc s1 z with
     | Some u => subst_args KO KS CO E4 B s2 vpow u /\ exists w, subs_poly KO CO PO TO E4 vpow u s2 = Ok w /\ assoc s3 z = Some w
     | None => assoc s3 z = assoc s2 z
     end) ->
  forall us ws, sorted_set us -> incl B us -> coef us r2 ws = coef us r3 ws.
Proof.
  intros E1 E2 E3 E4 B s1 s2 s3 vpow x r1 r2 r3 A1 ER1 A2 ER2 A3 ER3 H us ws HU IU.
  assert (M : forall E sm (s r : series), subst_args KO KS CO E B sm vpow s -> subs_poly KO CO PO TO E vpow s sm = Ok r -> same (vt us r) (imgs KS CO us sm (vt us s)) /\ forall e, In e (vt us s) -> goodv (C := C) us sm e).
  { intros E sm s r A ER. pose proof A as (_ & _ & _ & Sm & _ & _ & W & I & N). destruct (subs_poly_exact KO KS CO PO TO KL CL FN E B sm vpow s A) as [(r0 & X & _ & _ & D)|(e & X & _)]; [|congruence]. assert (r0 = r) by congruence. subst r0. split.
    - apply (same_eqb CO CL). intros v. rewrite vt_psum, <- coef_nden, (D us v HU IU), (subst_imgs KO KS CO CL us sm HU s W (incl_tran I IU)). reflexivity.
    - apply (vt_good KO KS CO us sm HU s W (incl_tran I IU) N). apply sorted_set_nodup; exact Sm. }
  destruct (M E1 s1 x r1 A1 ER1) as [S1 _]. destruct (M E2 s2 r1 r2 A2 ER2) as [S2 _]. destruct (M E3 s3 x r3 A3 ER3) as [S3 G3].
  apply (P_Poly.same_coef KS CO us r2 r3 ws). eapply same_trans; [exact S2|]. eapply same_trans; [apply (imgs_same KS CO CL us s2 _ _ S1)|]. eapply same_trans; [|apply same_sym; exact S3]. apply (compose_imgs us s1 s2 s3).
  - intros z. specialize (H z). destruct (assoc s1 z) as [u|]; [|exact H]. destruct H as (Au & w & EW & A). exists w. split; [exact A|]. exact (proj1 (M E4 s2 u w Au EW)).
  - intros z u A. specialize (H z). rewrite A in H. destruct H as (Au & w & EW & _). exact (proj2 (M E4 s2 u w Au EW)).
  - exact G3.
Qed.
End SC.
Print Assumptions subs_poly_compose.

(** Non-vacuity: 3 a b^2 - 2 a + 7 b with b := a, then a := x; that is a := x, b := x. *)
Notation ex_s1 := [("b"%string, ix_a)].
Notation ex_s2 := [("a"%string, ex_x)].
Notation ex_B := ["a"; "b"]%string.
Notation ex_nonneg x := (forallb (fun e => forallb (fun a => 0 <=? a) (ks_exps exS (len (s_ss x)) (fst e))) (terms x)).
Lemma ex_args2 (sm : symbol_map (series Z Z Z)) (x : series Z Z Z) : sorted_set (map fst sm) -> (forall z u, In (z, u) sm -> wf exK exS Z_cf u /\ incl (s_ss u) ex_B) -> wf exK exS Z_cf x -> incl (s_ss x) ex_B ->
  ex_nonneg x = true -> subst_args exK exS Z_cf (exE true 1) ex_B sm ex_ppow x.
Proof.
  intros Sm V W I N.
  split; [exact (exE_ok true 1)|]. split; [repeat constructor|]. split; [vm_compute; discriminate|]. split; [exact Sm|]. split; [exact V|split; [|split; [exact W|split; [exact I|]]]].
  - intros z u n J. apply ex_ppow_power. destruct (V z u J) as [Wu Iu]. split; [exact Wu|]. assert (L : (len (s_ss u) <= 2)%nat) by (apply (NoDup_incl_length (sorted_set_nodup _ (wf_ss _ _ _ _ Wu)) Iu)). change (imax size_t) with 18446744073709551615. lia.
  - intros k c z J _. apply (expo_in (Z.le 0)); [lia|]. rewrite forallb_forall in N. specialize (N _ J). rewrite forallb_forall in N. apply Forall_forall. intros a Ja. apply Z.leb_le. apply N. exact Ja.
Qed.
Notation ex_sub x sm := (subs_poly exK Z_cf exP Z_tag (exE true 1) ex_ppow x sm).
Example ex_subst_compose : exists r1 r2 r3 w, ex_sub ex_x ex_s1 = Ok r1 /\ ex_sub r1 ex_s2 = Ok r2 /\ ex_sub ix_a ex_s2 = Ok w /\ ex_sub ex_x [("a", ex_x); ("b", w)]%string = Ok r3 /\
  series_size r2 = 12%nat /\ (forall ws, coef exS Z_cf ex_B r2 ws = coef exS Z_cf ex_B r3 ws).
Proof.
  assert (G : exists r1 r2 r3 w, ex_sub ex_x ex_s1 = Ok r1 /\ ex_sub r1 ex_s2 = Ok r2 /\ ex_sub ix_a ex_s2 = Ok w /\ ex_sub ex_x [("a", ex_x); ("b", w)]%string = Ok r3 /\ series_size r2 = 12%nat /\ ex_nonneg r1 = true /\ s_ss r1 = ex_B).
  { do 4 eexists. split; [vm_compute; reflexivity|]. split; [vm_compute; reflexivity|]. split; [vm_compute; reflexivity|]. split; [vm_compute; reflexivity|]. split; [vm_compute; reflexivity|]. split; vm_compute; reflexivity. }
  destruct G as (r1 & r2 & r3 & w & X1 & X2 & XW & X3 & SZ & N1 & S1). exists r1, r2, r3, w. do 5 (split; [assumption|]).
  destruct ex_x_wf as (Wx & Sx & _). destruct ix_a_wf as (Wa & Sa & _). assert (Ix : incl (s_ss ex_x) ex_B) by (rewrite Sx; apply incl_refl). assert (Ia : incl (s_ss ix_a) ex_B) by (rewrite Sa; intros y [<-|[]]; left; reflexivity).
  assert (Nx : ex_nonneg ex_x = true) by (vm_compute; reflexivity). assert (Na : ex_nonneg ix_a = true) by (vm_compute; reflexivity).
  assert (One : forall (z : string) (u : series Z Z Z), wf exK exS Z_cf u -> incl (s_ss u) ex_B -> forall z' u', In (z', u') [(z, u)] -> wf exK exS Z_cf u' /\ incl (s_ss u') ex_B).
  { intros z u Wu Iu z' u' [J|[]]. apply (f_equal snd) in J. unfold snd in J. rewrite <- J. auto. }
  assert (A1 : subst_args exK exS Z_cf (exE true 1) ex_B ex_s1 ex_ppow ex_x) by (apply ex_args2; [repeat constructor|apply One; assumption|assumption|assumption|assumption]).
  assert (AW : subst_args exK exS Z_cf (exE true 1) ex_B ex_s2 ex_ppow ix_a) by (apply ex_args2; [repeat constructor|apply One; assumption|assumption|assumption|assumption]).
  assert (RW : forall sm x r, subst_args exK exS Z_cf (exE true 1) ex_B sm ex_ppow x -> ex_sub x sm = Ok r -> wf exK exS Z_cf r /\ incl (s_ss r) ex_B).
  { intros sm x r A ER. destruct (subs_poly_exact exK exS Z_cf exP Z_tag exK_laws Z_cf_laws (pm_fits_nil _) (exE true 1) ex_B sm ex_ppow x A) as [(r0 & X & W0 & I0 & _)|(e & X & _)]; [|congruence]. assert (r0 = r) by congruence. subst r0. auto. }
  destruct (RW _ _ _ A1 X1) as [W1 I1]. destruct (RW _ _ _ AW XW) as [Ww Iw].
  assert (A2 : subst_args exK exS Z_cf (exE true 1) ex_B ex_s2 ex_ppow r1) by (apply ex_args2; [repeat constructor|apply One; assumption|assumption|assumption|assumption]).
  assert (A3 : subst_args exK exS Z_cf (exE true 1) ex_B [("a", ex_x); ("b", w)]%string ex_ppow ex_x).
  { apply ex_args2; [repeat constructor| |assumption|assumption|assumption]. intros z' u' [J|J]; [apply (f_equal snd) in J; unfold snd in J; rewrite <- J; auto|apply (One "b"%string w Ww Iw z' u' J)]. }
  intros ws. apply (subs_poly_compose exK exS Z_cf exP Z_tag exK_laws Z_cf_laws (pm_fits_nil _) (exE true 1) (exE true 1) (exE true 1) (exE true 1) ex_B ex_s1 ex_s2 [("a", ex_x); ("b", w)]%string ex_ppow ex_x r1 r2 r3 A1 X1 A2 X2 A3 X3); [|repeat constructor|apply incl_refl].
  intros z. unfold assoc. cbn [find fst snd]. destruct (String.eqb_spec "b" z) as [<-|N2].
  - split; [exact AW|]. exists w. split; [exact XW|reflexivity].
  - destruct (String.eqb_spec "a" z) as [<-|N3]; reflexivity.
Qed.
