(** Property C109, continued: substitution is a homomorphism. *)
From Coq Require Import ZArith List Bool String Arith Sorted Permutation Lia Ring Ring_theory.
From Verif Require Import Base KpackModel KpackSpec IntModel IntSpec SymModel SymSpec SymProofs P_Sym PMonModel PMonSpec KeyOps KeyInst
  SeriesModel SeriesModel2 SeriesSpec SeriesProofs SeriesProofs2 SeriesProofs3 SeriesProofs4 SeriesProofs5 SeriesProofs6 Lin EvalSpec SeriesEval SeriesProofs7 CfInst P_Series P_Series2
  PolyModel PolyModel2 PolySpec PolyProofs7 PolyProofs8 PolyProofs9 P_Poly P_Poly2 PowProofs PowProofs2 P_Pow DiffProofs SubsSpec SubsProofs P_Subs PSSubsSpec PSSubs P_Subst P_Integ2.
Import ListNotations.
Open Scope Z_scope.
Open Scope res_scope.
Local Notation len := List.length.

Section SH.
Context {K C Tag : Type} (KO : key_ops K) (KS : key_sem K) (CO : cf_ops C) (PO : tbl_policy (K * C)) (TO : tag_ops Tag).
Context (KL : key_laws KO KS) (CL : cf_laws CO) (FN : ks_fits KS []).
Notation series := (series K C Tag).
Notation WF := (wf KO KS CO).
Notation coef := (coef KS CO).
Notation exps s k := (ks_exps KS (List.length (s_ss s)) k).
Notation "0c" := (c_zero CO).
Notation "1c" := (c_one CO).
Infix "+c" := (c_add CO) (at level 50, left associativity).
Infix "*c" := (c_mul CO) (at level 40, left associativity).
Add Ring CringSH : (cl_ring _ CL).
Notation vterm := (list Z * C)%type.
Notation vt := (vt KS).
Notation same := (same CO).
Notation vprod := (vprod CO).

Section H.
Variables (us : symbol_set) (sm : symbol_map series).
Hypothesis HU : sorted_set us.
Let ND : NoDup us := sorted_set_nodup _ HU.
Notation lenok := (lenok (C := C) us).
Notation one := (f_one CO (len us)).

Lemma lenok_prod a b : lenok a -> lenok b -> lenok (vprod a b).
Proof. intros A D e I. apply (vprod_len CO (len us) a b A D e I). Qed.
Lemma unit_l (a : list vterm) : lenok a -> vprod one a = a.
Proof.
  intros H. unfold f_one. rewrite vprod_cons. change (vprod [] a) with (@nil vterm). rewrite List.app_nil_r. rewrite <- (map_id a) at 2. apply map_ext_in. intros [v c] I. specialize (H _ I). unfold vmulp. cbn [fst snd] in *. rewrite vadd_comm, <- H, vadd_zeros. f_equal. ring.
Qed.
Lemma prod_app_r a b c : same (vprod a (b ++ c)) (vprod a b ++ vprod a c).
Proof. intros Q. rewrite (same_swap CO CL), vprod_app, !(psum_app CO CL), (same_swap CO CL b a), (same_swap CO CL c a). reflexivity. Qed.
Lemma prod4 a b c d : same (vprod (vprod a b) (vprod c d)) (vprod (vprod a c) (vprod b d)).
Proof.
  rewrite (vprod_assoc CO CL a b (vprod c d)), <- (vprod_assoc CO CL b c d), (vprod_assoc CO CL a c (vprod b d)), <- (vprod_assoc CO CL c b d).
  apply (same_prod CO CL); [apply same_refl|]. apply (same_prod CO CL); [|apply same_refl]. apply (same_swap CO CL).
Qed.
Lemma powl_add (u : series) a b : powl KS CO us u (a + b) = vprod (powl KS CO us u a) (powl KS CO us u b).
Proof.
  induction b as [|b IH].
  - rewrite Nat.add_0_r. symmetry. apply (vprodx_unit CO CL us). exact (powl_len KS CO us u a).
  - rewrite Nat.add_succ_r. cbn [powl]. rewrite IH. apply (vprod_assoc CO CL).
Qed.

(** The powers and the rest of a monomial, over us. *)
Fixpoint pw (l : symbol_set) (e : string -> Z) : list vterm :=
  match l with
  | [] => one
  | z :: l' => match assoc sm z with Some u => vprod (powl KS CO us u (Z.to_nat (e z))) (pw l' e) | None => pw l' e end
  end.
Lemma pw_lenok l e : lenok (pw l e).
Proof.
  induction l as [|z l IH]; cbn [pw]; [intros a [<-|[]]; apply repeat_length|]. destruct (assoc sm z) as [u|]; [|exact IH]. apply lenok_prod; [exact (powl_len KS CO us u _)|exact IH].
Qed.
Lemma pw_ext l e e' : (forall z, In z l -> e z = e' z) -> pw l e = pw l e'.
Proof. induction l as [|z l IH]; intros H; cbn [pw]; [reflexivity|]. rewrite (H z) by (left; reflexivity). rewrite IH by (intros; apply H; right; auto). reflexivity. Qed.
Lemma pw_filter (f : string -> bool) l e : (forall z, In z l -> f z = false -> e z = 0) -> pw l e = pw (filter f l) e.
Proof.
  induction l as [|z l IH]; intros H; cbn [pw filter]; [reflexivity|]. rewrite IH by (intros; apply H; [right|]; auto). destruct (f z) eqn:F; cbn [pw]; [reflexivity|].
  destruct (assoc sm z) as [u|]; [|reflexivity]. rewrite (H z (or_introl eq_refl) F). cbn [Z.to_nat powl]. apply unit_l, pw_lenok.
Qed.
Lemma pw_add l e e' : (forall z u, assoc sm z = Some u -> 0 <= e z /\ 0 <= e' z) -> same (pw l (fun z => e z + e' z)) (vprod (pw l e) (pw l e')).
Proof.
  intros H. induction l as [|z l IH]; cbn [pw]; [rewrite (vprodx_unit CO CL us) by (intros a [<-|[]]; apply repeat_length); apply same_refl|].
  destruct (assoc sm z) as [u|] eqn:A; [|exact IH]. destruct (H z u A) as [P1 P2]. rewrite Z2Nat.inj_add by assumption. rewrite powl_add.
  eapply same_trans; [|apply prod4]. apply (same_prod CO CL); [apply same_refl|exact IH].
Qed.
(** The image of a monomial over us. *)
Definition img (e : vterm) : list vterm := vprod (pw us (expo us (fst e))) [(keep sm us (fst e), snd e)].
Lemma sorted_filter (f : string -> bool) l : sorted_set l -> sorted_set (filter f l).
Proof.
  unfold sorted_set. induction l as [|z l IH]; intros S; [constructor|]. apply StronglySorted_inv in S as [S F]. cbn [filter]. destruct (f z); [|apply IH; exact S]. constructor; [apply IH; exact S|].
  apply Forall_forall. intros y J. apply filter_In in J as [J _]. exact (proj1 (Forall_forall _ _) F y J).
Qed.
Lemma f_powers_pw ss es : f_powers KS CO us sm ss es = pw ss (expo ss es).
Proof.
  unfold f_powers. match goal with |- fold_right ?F ?o ss = _ => enough (G : forall l, fold_right F o l = pw l (expo ss es)) by apply G end.
  induction l as [|z l IH]; cbn [fold_right pw]; [reflexivity|]. destruct (assoc sm z); rewrite IH; [|reflexivity]. rewrite fx_mul, fx_pow. reflexivity.
Qed.
Lemma keep_over ss v : incl ss us -> spread ss us (keep sm ss v) = keep sm us (spread ss us v).
Proof.
  intros I. unfold spread at 1, keep. apply map_ext_in. intros z J. rewrite (expo_map ss _ z), (expo_spread' ss us v z I ND). destruct (in_dec string_dec z ss) as [X|X]; [reflexivity|]. rewrite (SeriesEval.expo_notin ss v z X). destruct (assoc sm z); reflexivity.
Qed.
Lemma term_img (x : series) e : sorted_set (s_ss x) -> incl (s_ss x) us -> f_term KS CO us sm x e = img (spread (s_ss x) us (exps x (fst e)), snd e).
Proof.
  intros Hs I. unfold f_term. rewrite fx_mul. unfold img. cbn [fst snd]. rewrite keep_over by exact I. f_equal. rewrite f_powers_pw. set (v := exps x (fst e)).
  rewrite (pw_ext us (expo us (spread (s_ss x) us v)) (expo (s_ss x) v)) by (intros z _; apply expo_spread'; auto).
  rewrite (pw_filter (fun z => if in_dec string_dec z (s_ss x) then true else false) us).
  - f_equal. apply sorted_ext; [exact Hs|apply sorted_filter; exact HU|]. intros z. rewrite filter_In. destruct (in_dec string_dec z (s_ss x)) as [X|X]; [intuition|]. split; [intros Y; contradiction|intros [_ Y]; discriminate Y].
  - intros z _ F. destruct (in_dec string_dec z (s_ss x)) as [X|X]; [discriminate F|]. apply SeriesEval.expo_notin. exact X.
Qed.
Definition imgs (l : list vterm) : list vterm := List.concat (map img l).
Lemma subst_imgs (x : series) : WF x -> incl (s_ss x) us -> f_subst KS CO us sm x = imgs (vt us x).
Proof. intros W I. unfold f_subst, imgs, SeriesEval.vt. rewrite map_map. f_equal. apply map_ext. intros e. apply term_img; [apply (wf_ss _ _ _ _ W)|exact I]. Qed.
Lemma psum_img Q v c : psum CO Q (img (v, c)) = c *c psum CO Q (img (v, 1c)).
Proof.
  unfold img. cbn [fst snd]. rewrite !vprodx_single. induction (pw us (expo us v)) as [|e l IH]; cbn [map]; [rewrite !psum_nil; ring|]. rewrite !(psum_cons CO CL), IH. cbn [fst snd]. destruct (Q _); cbn [ifP]; ring.
Qed.
Lemma psum_imgs Q l : psum CO Q (imgs l) = lin 0c (c_add CO) (c_mul CO) (fun c => c) (fun v => psum CO Q (img (v, 1c))) l.
Proof. unfold imgs. induction l as [|[v c] l IH]; cbn [map List.concat lin fst snd]; [apply psum_nil|]. rewrite (psum_app CO CL), IH, psum_img. reflexivity. Qed.
Lemma imgs_same l l' : same l l' -> same (imgs l) (imgs l').
Proof. intros S Q. rewrite !psum_imgs. apply (lin_ext CO _ _ _ _ _ _ (cl_ring CO CL) (list_eq_dec Z.eq_dec) (fun c => c)); auto. Qed.
Lemma imgs_app l l' : imgs (l ++ l') = imgs l ++ imgs l'.
Proof. unfold imgs. rewrite map_app. apply concat_app. Qed.
(** Monomials over us without negative powers of the symbols of the map. *)
Definition goodv (e : vterm) : Prop := len (fst e) = len us /\ forall z u, assoc sm z = Some u -> 0 <= expo us (fst e) z.
Lemma vadd_map (f g : string -> Z) (l : symbol_set) : vadd (map f l) (map g l) = map (fun z => f z + g z) l.
Proof. unfold vadd. induction l as [|z l IH]; [reflexivity|]. cbn [map combine fst snd]. rewrite IH. reflexivity. Qed.
Lemma img_mul a b : goodv a -> goodv b -> same (img (vmulp CO a b)) (vprod (img a) (img b)).
Proof.
  intros [LA PA] [LB PB]. unfold img. cbn [vmulp fst snd].
  assert (KE : [(keep sm us (vadd (fst a) (fst b)), snd a *c snd b)] = vprod [(keep sm us (fst a), snd a)] [(keep sm us (fst b), snd b)]).
  { rewrite vprodx_single. cbn [map fst snd]. unfold keep. rewrite vadd_map. f_equal. f_equal. apply map_ext. intros z. destruct (assoc sm z); [reflexivity|]. apply expo_vadd; assumption. }
  rewrite KE. eapply same_trans; [|apply prod4]. apply (same_prod CO CL); [|apply same_refl].
  rewrite (pw_ext us (expo us (vadd (fst a) (fst b))) (fun z => expo us (fst a) z + expo us (fst b) z)) by (intros z _; apply expo_vadd; assumption).
  apply pw_add. intros z u A. split; [eapply PA|eapply PB]; eauto.
Qed.
Lemma imgs_scaled a l : goodv a -> (forall e, In e l -> goodv e) -> same (imgs (map (vmulp CO a) l)) (vprod (img a) (imgs l)).
Proof.
  intros Ga. induction l as [|b l IH]; intros G.
  - cbn [map imgs]. unfold imgs. cbn [map List.concat]. intros Q. rewrite (same_swap CO CL). reflexivity.
  - cbn [map]. unfold imgs in *. cbn [map List.concat]. eapply same_trans; [|apply same_sym, prod_app_r]. apply (same_app CO CL); [apply img_mul; [exact Ga|apply G; left; reflexivity]|apply IH; intros; apply G; right; auto].
Qed.
Lemma imgs_prod l1 l2 : (forall e, In e l1 -> goodv e) -> (forall e, In e l2 -> goodv e) -> same (imgs (vprod l1 l2)) (vprod (imgs l1) (imgs l2)).
Proof.
  intros G1 G2. induction l1 as [|a l1 IH]; [apply same_refl|]. rewrite vprod_cons, imgs_app. unfold imgs at 3. cbn [map List.concat]. rewrite vprod_app. apply (same_app CO CL); [apply imgs_scaled; [apply G1; left; reflexivity|exact G2]|apply IH; intros; apply G1; right; auto].
Qed.
Lemma psum_imgs_scale Q c l : psum CO Q (imgs (map (fun e => (fst e, snd e *c c)) l)) = psum CO Q (imgs l) *c c.
Proof. rewrite !psum_imgs. induction l as [|e l IH]; cbn [map lin fst snd]; [ring|]. rewrite IH. ring. Qed.
Lemma vt_good (x : series) : WF x -> incl (s_ss x) us -> (forall k c z, In (k, c) (terms x) -> In z (map fst sm) -> 0 <= expo (s_ss x) (exps x k) z) -> NoDup (map fst sm) -> forall e, In e (vt us x) -> goodv e.
Proof.
  intros W I NX NS e J. split; [apply (vt_len KS us x e J)|]. unfold SeriesEval.vt in J. apply in_map_iff in J as ([k c] & <- & J). cbn [fst]. intros z u A. rewrite expo_spread' by auto. apply (NX k c z J). apply assoc_iff in A; [|exact NS]. apply (in_map fst) in A. exact A.
Qed.
End H.

(** C109. Substitution is a homomorphism: in a sum and in a product of polynomials, the sum and the product of the results. *)
Theorem subs_poly_product : forall E E1 E2 E3 E4 B (sm : symbol_map series) vpow (x y p rx ry rp q : series), subst_args KO KS CO E B sm vpow x -> subst_args KO KS CO E1 B sm vpow y -> env_ok KO KS E2 -> env_ok KO KS E3 -> env_ok KO KS E4 ->
  poly_mul KO CO PO TO E2 x y = Ok p ->
  subs_poly KO CO PO TO E vpow x sm = Ok rx -> subs_poly KO CO PO TO E1 vpow y sm = Ok ry -> subs_poly KO CO PO TO E3 vpow p sm = Ok rp ->
  poly_mul KO CO PO TO E4 rx ry = Ok q ->
  forall us ws, sorted_set us -> incl B us -> coef us rp ws = coef us q ws.
Proof.
  intros E E1 E2 E3 E4 B sm vpow x y p rx ry rp q Ax Ay E2O E3O E4O EP ERX ERY ERP EQ us ws HU IU.
  pose proof Ax as (EO & HB & SZ & Sm & VU & VP & Wx & Ix & Nx). pose proof Ay as (E1O & _ & _ & _ & _ & _ & Wy & Iy & Ny).
  assert (SL : forall s : series, WF s -> incl (s_ss s) B -> (len (s_ss s) <= len B)%nat) by (intros s W I; apply NoDup_incl_length; auto; apply sorted_set_nodup, (wf_ss _ _ _ _ W)).
  assert (SB : forall a b : series, WF a -> WF b -> incl (s_ss a) B -> incl (s_ss b) B -> Z.of_nat (len (s_ss a) + len (s_ss b)) <= imax size_t) by (intros a b Wa Wb Ia Ib; pose proof (SL a Wa Ia); pose proof (SL b Wb Ib); lia).
  destruct (mul_exact' KO KS CO PO TO KL CL E2 x y p E2O Wx Wy (SB x y Wx Wy Ix Iy) EP) as (Wp & [_ Up] & _).
  assert (Ip : incl (s_ss p) B) by (intros z J; apply Up in J as [J|J]; auto).
  pose proof (mul_same KO KS CO PO TO KL CL E2 x y p us E2O Wx Wy (SB x y Wx Wy Ix Iy) EP HU (incl_tran Ip IU)) as Sp.
  assert (NS : NoDup (map fst sm)) by (apply sorted_set_nodup; exact Sm).
  pose proof (vt_good us sm HU x Wx (incl_tran Ix IU) Nx NS) as Gx. pose proof (vt_good us sm HU y Wy (incl_tran Iy IU) Ny NS) as Gy.
  assert (Np : forall k c z, In (k, c) (terms p) -> In z (map fst sm) -> 0 <= expo (s_ss p) (exps p k) z).
  { intros k c z J Jz. assert (CV : covers us p) by (split; [exact HU|eapply incl_tran; eauto]). pose proof (wf_nonzero _ _ _ _ Wp k c J) as NZ. rewrite <- (coef_term KO KS CO KL CL us p k c Wp CV J), coef_nden, <- vt_psum, Sp in NZ.
    apply (psum_nonzero CO CL) in NZ as (e & Je & Qe). apply vec_eqb_iff in Qe. rewrite <- (expo_spread' (s_ss p) us (exps p k) z) by (first [eapply incl_tran; eauto|apply sorted_set_nodup; exact HU]). rewrite <- Qe.
    unfold PolyProofs9.vprod in Je. apply in_map_iff in Je as ([a b] & <- & Je). apply in_prod_iff in Je as [Ja Jb]. destruct (Gx a Ja) as [La Pa]. destruct (Gy b Jb) as [Lb Pb]. cbn [vmulp fst snd]. rewrite expo_vadd by assumption.
    apply in_map_iff in Jz as ([z' u] & <- & Jz). apply assoc_iff in Jz; [|exact NS]. pose proof (Pa _ u Jz). pose proof (Pb _ u Jz). cbn [fst]. lia. }
  assert (Ap : subst_args KO KS CO E3 B sm vpow p) by (unfold subst_args; auto 12).
  destruct (subs_poly_exact KO KS CO PO TO KL CL FN E B sm vpow x Ax) as [(r1 & X1 & W1 & I1 & C1)|(e & X & _)]; [|congruence].
  destruct (subs_poly_exact KO KS CO PO TO KL CL FN E1 B sm vpow y Ay) as [(r2 & X2 & W2 & I2 & C2)|(e & X & _)]; [|congruence].
  destruct (subs_poly_exact KO KS CO PO TO KL CL FN E3 B sm vpow p Ap) as [(r3 & X3 & W3 & I3 & C3)|(e & X & _)]; [|congruence].
  assert (r1 = rx) by congruence. assert (r2 = ry) by congruence. assert (r3 = rp) by congruence. subst r1 r2 r3.
  assert (M : forall s r : series, WF s -> incl (s_ss s) B -> (forall us ws, sorted_set us -> incl B us -> coef us r ws = f_coef CO (f_subst KS CO us sm s) ws) -> same (vt us r) (imgs us sm (vt us s))).
  { intros s r Ws Is Cs. apply (same_eqb CO CL). intros v. rewrite vt_psum, <- coef_nden, (Cs us v HU IU), (subst_imgs us sm HU s Ws (incl_tran Is IU)). reflexivity. }
  destruct (mul_exact' KO KS CO PO TO KL CL E4 rx ry q E4O W1 W2 (SB rx ry W1 W2 I1 I2) EQ) as (_ & [_ Uq] & _).
  assert (Iq : incl (s_ss q) us) by (intros z J; apply IU; apply Uq in J as [J|J]; auto).
  apply (P_Poly.same_coef KS CO us rp q ws). eapply same_trans; [apply (M p rp Wp Ip C3)|]. eapply same_trans; [apply imgs_same; exact Sp|]. eapply same_trans; [apply imgs_prod; assumption|].
  apply same_sym. eapply same_trans; [apply (mul_same KO KS CO PO TO KL CL E4 rx ry q us E4O W1 W2 (SB rx ry W1 W2 I1 I2) EQ HU Iq)|]. apply (same_prod CO CL); [apply (M x rx Wx Ix C1)|apply (M y ry Wy Iy C2)].
Qed.
Theorem subs_poly_sum : forall (sign : bool) E B (sm : symbol_map series) vpow (x y p rx ry rp : series), subst_args KO KS CO E B sm vpow x -> subst_args KO KS CO E B sm vpow y ->
  (if sign then series_add KO CO PO TO x y else series_sub KO CO PO TO x y) = Ok p ->
  (* cancellations only remove terms *)
  subst_args KO KS CO E B sm vpow p ->
  subs_poly KO CO PO TO E vpow x sm = Ok rx -> subs_poly KO CO PO TO E vpow y sm = Ok ry -> subs_poly KO CO PO TO E vpow p sm = Ok rp ->
  forall us ws, sorted_set us -> incl B us -> coef us rp ws = if sign then coef us rx ws +c coef us ry ws else c_sub CO (coef us rx ws) (coef us ry ws).
Proof.
  intros sign E B sm vpow x y p rx ry rp Ax Ay EP Ap ERX ERY ERP us ws HU IU.
  pose proof Ax as (EO & HB & SZ & Sm & VU & VP & Wx & Ix & Nx). pose proof Ay as (_ & _ & _ & _ & _ & _ & Wy & Iy & Ny). pose proof Ap as (_ & _ & _ & _ & _ & _ & Wp & Ip & Np).
  assert (SL : forall s : series, WF s -> incl (s_ss s) B -> (len (s_ss s) <= len B)%nat) by (intros s W I; apply NoDup_incl_length; auto; apply sorted_set_nodup, (wf_ss _ _ _ _ W)).
  assert (SB : Z.of_nat (len (s_ss x) + len (s_ss y)) <= imax size_t) by (pose proof (SL x Wx Ix); pose proof (SL y Wy Iy); lia).
  assert (CP : forall ws, coef us p ws = if sign then coef us x ws +c coef us y ws else c_sub CO (coef us x ws) (coef us y ws)).
  { destruct (add_sub_exact KO KS CO PO TO KL CL sign x y Wx Wy SB) as [(r & ER & _ & _ & _ & _ & D)|[[X|X] _]]; [|destruct sign; congruence|destruct sign; congruence]. intros v. assert (r = p) by (destruct sign; congruence). subst r. apply D. }
  destruct (subs_poly_exact KO KS CO PO TO KL CL FN E B sm vpow x Ax) as [(r1 & X1 & W1 & I1 & C1)|(e & X & _)]; [|congruence].
  destruct (subs_poly_exact KO KS CO PO TO KL CL FN E B sm vpow y Ay) as [(r2 & X2 & W2 & I2 & C2)|(e & X & _)]; [|congruence].
  destruct (subs_poly_exact KO KS CO PO TO KL CL FN E B sm vpow p Ap) as [(r3 & X3 & W3 & I3 & C3)|(e & X & _)]; [|congruence].
  assert (r1 = rx) by congruence. assert (r2 = ry) by congruence. assert (r3 = rp) by congruence. subst r1 r2 r3.
  assert (M : forall s r : series, WF s -> incl (s_ss s) B -> (forall us ws, sorted_set us -> incl B us -> coef us r ws = f_coef CO (f_subst KS CO us sm s) ws) -> coef us r ws = psum CO (fun v => vec_eqb v ws) (imgs us sm (vt us s))).
  { intros s r Ws Is Cs. rewrite (Cs us ws HU IU), (subst_imgs us sm HU s Ws (incl_tran Is IU)). reflexivity. }
  rewrite (M p rp Wp Ip C3), (M x rx Wx Ix C1), (M y ry Wy Iy C2).
  set (sg := if sign then 1c else c_sub CO 0c 1c).
  assert (S : same (vt us p) (vt us x ++ map (fun e => (fst e, snd e *c sg)) (vt us y))).
  { assert (PM : forall Q l, psum CO Q (map (fun e : vterm => (fst e, snd e *c sg)) l) = psum CO Q l *c sg) by (intros Q l; apply (SeriesProofs.psum_map CO CL Q (fun v => v) (fun c0 => c0 *c sg) CO l); intros; ring).
    apply (same_eqb CO CL). intros v. rewrite (psum_app CO CL), PM, !vt_psum, <- !coef_nden, CP. unfold sg. destruct sign; ring. }
  rewrite (imgs_same us sm _ _ S), imgs_app, (psum_app CO CL), psum_imgs_scale. unfold sg. destruct sign; ring.
Qed.

(** Monomials without the symbol z. *)
Definition without (us : symbol_set) (z : string) (l : list vterm) : Prop := forall e, In e l -> len (fst e) = len us /\ expo us (fst e) z = 0.
Lemma without_prod us z a b : without us z a -> without us z b -> without us z (vprod a b).
Proof.
  intros A D e J. unfold PolyProofs9.vprod in J. apply in_map_iff in J as ([p q] & <- & J). apply in_prod_iff in J as [I J]. destruct (A p I) as [L1 X1]. destruct (D q J) as [L2 X2]. cbn [vmulp fst snd].
  split; [apply vadd_len; auto|]. rewrite expo_vadd by assumption. lia.
Qed.
Lemma expo_repeat z : forall (us : symbol_set), expo us (repeat 0 (len us)) z = 0.
Proof. induction us as [|y us IH]; [reflexivity|]. cbn [List.length repeat expo]. destruct (String.eqb y z); [reflexivity|exact IH]. Qed.
Lemma without_one us z : without us z (f_one CO (len us)).
Proof. intros e [<-|[]]. cbn [fst]. split; [apply repeat_length|apply expo_repeat]. Qed.
Lemma without_powl us z (u : series) n : without us z (vt us u) -> without us z (powl KS CO us u n).
Proof. intros H. induction n as [|n IH]; cbn [powl]; [apply without_one|]. apply without_prod; auto. Qed.

(** C109. A substituted symbol that occurs in no value no longer occurs. *)
Theorem subs_poly_removes : forall E B (sm : symbol_map series) vpow (x r : series) z, subst_args KO KS CO E B sm vpow x -> subs_poly KO CO PO TO E vpow x sm = Ok r ->
  In z (map fst sm) -> (forall y u, In (y, u) sm -> ~ In z (s_ss u)) ->
  forall us ws, sorted_set us -> incl B us -> coef us r ws <> 0c -> expo us ws z = 0.
Proof.
  intros E B sm vpow x r z Ax ER Iz NZ us ws HU IU. pose proof Ax as (EO & HB & SZ & Sm & VU & VP & Wx & Ix & Nx).
  destruct (subs_poly_exact KO KS CO PO TO KL CL FN E B sm vpow x Ax) as [(r1 & X1 & W1 & I1 & C1)|(e & X & _)]; [|congruence]. assert (r1 = r) by congruence. subst r1.
  rewrite (C1 us ws HU IU), (subst_imgs us sm HU x Wx (incl_tran Ix IU)). rewrite fx_coef. intros NE. apply (psum_nonzero CO CL) in NE as (e & J & Q). apply vec_eqb_iff in Q. rewrite <- Q.
  unfold imgs in J. apply in_concat in J as (l & Jl & J). apply in_map_iff in Jl as ([v c] & <- & _). enough (W : without us z (img us sm (v, c))) by (apply (W e J)).
  assert (NS : NoDup (map fst sm)) by (apply sorted_set_nodup; exact Sm). unfold img. apply without_prod.
  - cbn [fst snd]. generalize (expo us v) as f. intros f. enough (G : forall l, without us z (pw us sm l f)) by apply G. induction l as [|y l IH]; cbn [pw]; [apply without_one|]. destruct (assoc sm y) as [u|] eqn:A; [|exact IH]. apply without_prod; [|exact IH].
    apply without_powl. apply assoc_iff in A; [|exact NS]. intros e' J'. split; [apply (vt_len KS us u e' J')|]. unfold SeriesEval.vt in J'. apply in_map_iff in J' as ([k0 c0] & <- & _). cbn [fst].
    destruct (VU y u A) as [Wu Iu]. rewrite expo_spread' by (first [eapply incl_tran; eauto|apply sorted_set_nodup; exact HU]). apply SeriesEval.expo_notin. eapply NZ; eauto.
  - intros e' [<-|[]]. cbn [fst snd]. unfold keep. split; [apply map_length|]. rewrite (expo_map us _ z). destruct (in_dec string_dec z us); [|reflexivity].
    apply in_map_iff in Iz as ([z' u] & <- & Iz). apply assoc_iff in Iz; [|exact NS]. cbn [fst] in *. rewrite Iz. reflexivity.
Qed.
(** C109. If no symbol of the map is a symbol of x, the result is x. *)
Theorem subs_poly_unaffected : forall E B (sm : symbol_map series) vpow (x r : series), subst_args KO KS CO E B sm vpow x -> subs_poly KO CO PO TO E vpow x sm = Ok r ->
  (forall z, In z (s_ss x) -> ~ In z (map fst sm)) ->
  forall us ws, sorted_set us -> incl B us -> coef us r ws = coef us x ws.
Proof.
  intros E B sm vpow x r Ax ER NI us ws HU IU. pose proof Ax as (EO & HB & SZ & Sm & VU & VP & Wx & Ix & Nx). assert (NS : NoDup (map fst sm)) by (apply sorted_set_nodup; exact Sm). assert (ND : NoDup us) by (apply sorted_set_nodup; exact HU).
  destruct (subs_poly_exact KO KS CO PO TO KL CL FN E B sm vpow x Ax) as [(r1 & X1 & W1 & I1 & C1)|(e & X & _)]; [|congruence]. assert (r1 = r) by congruence. subst r1.
  rewrite (C1 us ws HU IU), (subst_imgs us sm HU x Wx (incl_tran Ix IU)), fx_coef, coef_nden, <- vt_psum. f_equal.
  unfold imgs. assert (G : forall e, In e (vt us x) -> img us sm e = [e]).
  { intros [v c] J. pose proof (vt_len KS us x _ J) as LV. unfold SeriesEval.vt in J. apply in_map_iff in J as ([k c0] & J & _). injection J as EV _. cbn [fst snd] in *.
    assert (Z : forall z, In z us -> In z (map fst sm) -> expo us v z = 0) by (intros z _ Y; rewrite <- EV, expo_spread' by (first [eapply incl_tran; eauto|exact ND]); apply SeriesEval.expo_notin; intros T; exact (NI z T Y)).
    assert (AS : forall z u, assoc sm z = Some u -> In z (map fst sm)) by (intros z u A; apply assoc_iff in A; [|exact NS]; apply (in_map fst) in A; exact A).
    unfold img. cbn [fst snd]. assert (PW : forall l, incl l us -> pw us sm l (expo us v) = f_one CO (len us)).
    { induction l as [|y l IH]; intros IL; cbn [pw]; [reflexivity|]. rewrite IH by (intros t T; apply IL; right; exact T). destruct (assoc sm y) as [u|] eqn:A; [|reflexivity]. rewrite (Z y) by (first [apply IL; left; reflexivity|eapply AS; eauto]). cbn [Z.to_nat powl].
      apply (vprodx_unit CO CL us). intros e' [<-|[]]. apply repeat_length. }
    rewrite (PW us (incl_refl us)). assert (KE : keep sm us v = v).
    { transitivity (spread us us v); [|apply spread_self; assumption]. unfold keep, spread. apply map_ext_in. intros z T. destruct (assoc sm z) as [u|] eqn:A; [|reflexivity]. symmetry. apply Z; [exact T|eapply AS; eauto]. }
    rewrite KE. apply (unit_l us). intros e' [<-|[]]. exact LV. }
  revert G. generalize (vt us x) as l. induction l as [|e l IH]; intros G; [reflexivity|]. cbn [map List.concat]. rewrite (G e (or_introl eq_refl)), IH by (intros; apply G; right; auto). reflexivity.
Qed.
End SH.
Print Assumptions subs_poly_product.
Print Assumptions subs_poly_sum.
Print Assumptions subs_poly_removes.
Print Assumptions subs_poly_unaffected.

(** Non-vacuity: x = 3 a b^2 - 2 a + 7 b, with b replaced by x: in x x and in x + x. *)
Notation ex_sm2 := [("b"%string, ex_x)].
Notation ex_sub2 p := (subs_poly exK Z_cf exP Z_tag (exE true 1) ex_ppow p ex_sm2).
Example ex_subst_product : exists p rx rp q, subst_args exK exS Z_cf (exE true 1) ["a"; "b"]%string ex_sm2 ex_ppow ex_x /\
  poly_mul exK Z_cf exP Z_tag (exE true 1) ex_x ex_x = Ok p /\ ex_sub2 ex_x = Ok rx /\ ex_sub2 p = Ok rp /\ poly_mul exK Z_cf exP Z_tag (exE true 1) rx rx = Ok q /\
  (forall ws, coef exS Z_cf ["a"; "b"]%string rp ws = coef exS Z_cf ["a"; "b"]%string q ws) /\ coef exS Z_cf ["a"; "b"]%string rp [4; 6] = 24948 /\ series_size rp = series_size q.
Proof.
  assert (G : exists p rx rp q, poly_mul exK Z_cf exP Z_tag (exE true 1) ex_x ex_x = Ok p /\ ex_sub2 ex_x = Ok rx /\ ex_sub2 p = Ok rp /\ poly_mul exK Z_cf exP Z_tag (exE true 1) rx rx = Ok q /\
     coef exS Z_cf ["a"; "b"]%string rp [4; 6] = 24948 /\ series_size rp = series_size q).
  { do 4 eexists. split; [vm_compute; reflexivity|]. split; [vm_compute; reflexivity|]. split; [vm_compute; reflexivity|]. split; [vm_compute; reflexivity|]. split; vm_compute; reflexivity. }
  destruct G as (p & rx & rp & q & E1 & E2 & E3 & E4 & E5 & E6). exists p, rx, rp, q. pose proof (proj1 ex_subst_exact) as A. split; [exact A|]. split; [exact E1|]. split; [exact E2|]. split; [exact E3|]. split; [exact E4|]. split; [|split; [exact E5|exact E6]].
  - intros ws. apply (subs_poly_product exK exS Z_cf exP Z_tag exK_laws Z_cf_laws (pm_fits_nil _) (exE true 1) (exE true 1) (exE true 1) (exE true 1) (exE true 1) ["a"; "b"]%string ex_sm2 ex_ppow ex_x ex_x p rx rx rp q A A (exE_ok true 1) (exE_ok true 1) (exE_ok true 1) E1 E2 E2 E3 E4); [repeat constructor|apply incl_refl].
Qed.
Example ex_subst_sum : exists p rx rp, series_add exK Z_cf exP Z_tag ex_x ex_x = Ok p /\ subst_args exK exS Z_cf (exE true 1) ["a"; "b"]%string ex_sm2 ex_ppow p /\ ex_sub2 ex_x = Ok rx /\ ex_sub2 p = Ok rp /\
  (forall ws, coef exS Z_cf ["a"; "b"]%string rp ws = coef exS Z_cf ["a"; "b"]%string rx ws + coef exS Z_cf ["a"; "b"]%string rx ws).
Proof.
  assert (G : exists p rx rp, series_add exK Z_cf exP Z_tag ex_x ex_x = Ok p /\ s_ss p = ["a"; "b"]%string /\ forallb (fun e => forallb (fun a => 0 <=? a) (ks_exps exS (len (s_ss p)) (fst e))) (terms p) = true /\ ex_sub2 ex_x = Ok rx /\ ex_sub2 p = Ok rp).
  { do 3 eexists. split; [vm_compute; reflexivity|]. split; [vm_compute; reflexivity|]. split; [vm_compute; reflexivity|]. split; vm_compute; reflexivity. }
  destruct G as (p & rx & rp & E1 & SP & NN & E2 & E3). exists p, rx, rp. pose proof (proj1 ex_subst_exact) as A. pose proof A as (EO & HB & SZ & Sm & VU & VP & Wx & Ix & Nx).
  assert (Wp : wf exK exS Z_cf p).
  { destruct (add_sub_exact exK exS Z_cf exP Z_tag exK_laws Z_cf_laws true ex_x ex_x Wx Wx) as [(r & ER & W & _)|[[X|X] _]]; [vm_compute; discriminate| |congruence|congruence]. assert (r = p) by congruence. subst r. exact W. }
  assert (Ap : subst_args exK exS Z_cf (exE true 1) ["a"; "b"]%string ex_sm2 ex_ppow p).
  { split; [exact EO|]. split; [exact HB|]. split; [exact SZ|]. split; [exact Sm|]. split; [exact VU|]. split; [exact VP|]. split; [exact Wp|]. split; [rewrite SP; apply incl_refl|]. intros k c z I _. apply (expo_in (Z.le 0)); [lia|].
    rewrite forallb_forall in NN. specialize (NN _ I). rewrite forallb_forall in NN. apply Forall_forall. intros a J. apply Z.leb_le. apply NN. exact J. }
  split; [exact E1|]. split; [exact Ap|]. split; [exact E2|]. split; [exact E3|].
  intros ws. apply (subs_poly_sum exK exS Z_cf exP Z_tag exK_laws Z_cf_laws (pm_fits_nil _) true (exE true 1) ["a"; "b"]%string ex_sm2 ex_ppow ex_x ex_x p rx rx rp A A E1 Ap E2 E2 E3); [repeat constructor|apply incl_refl].
Qed.

(** A value over a alone: b no longer occurs; and a map of a symbol that does not occur. *)
Lemma ex_ppow_power (u : series Z Z Z) n : pow_arg exK exS Z_cf u -> (exists p, ex_ppow u (Z.of_nat n) = Ok p /\ is_power exK exS Z_cf u n p) \/ (exists e, ex_ppow u (Z.of_nat n) = Throw e).
Proof.
  intros PA. unfold ex_ppow. rewrite (proj2 (Z.ltb_ge (Z.of_nat n) 0)) by lia. rewrite Nat2Z.id.
  destruct (pow_exact exK exS Z_cf exP Z_tag exK_laws Z_cf_laws (pm_fits_nil _) [] (exE true 1) (fun c => Ok (cpower Z_cf c n)) n u ltac:(constructor) (exE_ok true 1) PA (fun c => eq_refl)) as [(r & ER & P)|[[ER|ER] _]]; [left; eauto|right; eauto|right; eauto].
Qed.
Lemma ex_args z (u : series Z Z Z) : wf exK exS Z_cf u -> incl (s_ss u) ["a"; "b"]%string -> pow_arg exK exS Z_cf u -> subst_args exK exS Z_cf (exE true 1) ["a"; "b"]%string [(z, u)] ex_ppow ex_x.
Proof.
  intros W I PA. destruct ex_x_wf as (Wx & S & _). split; [exact (exE_ok true 1)|]. split; [repeat constructor|]. split; [vm_compute; discriminate|]. split; [repeat constructor|]. split; [|split; [|split; [exact Wx|split; [rewrite S; apply incl_refl|]]]].
  - intros z' u' [J|[]]. apply (f_equal snd) in J. unfold snd in J. rewrite <- J. auto.
  - intros z' u' n [J|[]]. apply (f_equal snd) in J. unfold snd in J. rewrite <- J. apply ex_ppow_power. exact PA.
  - intros k c y J _. apply expo_in; [lia|]. exact (ex_x_expos k c J).
Qed.
Example ex_subst_removes : subst_args exK exS Z_cf (exE true 1) ["a"; "b"]%string [("b"%string, ix_a)] ex_ppow ex_x /\
  exists r, subs_poly exK Z_cf exP Z_tag (exE true 1) ex_ppow ex_x [("b"%string, ix_a)] = Ok r /\ In "b"%string (map fst [("b"%string, ix_a)]) /\ ~ In "b"%string (s_ss ix_a) /\ In "b"%string (s_ss r) /\ series_size r = 2%nat.
Proof.
  destruct ix_a_wf as (W & S & _). split.
  - apply ex_args; [exact W|rewrite S; intros z [<-|[]]; left; reflexivity|]. split; [exact W|]. rewrite S. vm_compute. discriminate.
  - eexists. split; [vm_compute; reflexivity|]. split; [left; reflexivity|]. split; [rewrite S; intros [X|[]]; discriminate X|]. split; [vm_compute; tauto|vm_compute; reflexivity].
Qed.
Example ex_subst_unaffected : subst_args exK exS Z_cf (exE true 1) ["a"; "b"]%string [("c"%string, ex_x)] ex_ppow ex_x /\ (forall z, In z (s_ss ex_x) -> ~ In z (map fst [("c"%string, ex_x)])) /\
  exists r, subs_poly exK Z_cf exP Z_tag (exE true 1) ex_ppow ex_x [("c"%string, ex_x)] = Ok r /\ series_size r = 3%nat.
Proof.
  destruct ex_x_wf as (W & S & _). split; [|split].
  - apply ex_args; [exact W|rewrite S; apply incl_refl|exact (proj1 ex_pow_arg)].
  - rewrite S. intros z [<-|[<-|[]]] [X|[]]; discriminate X.
  - eexists. split; vm_compute; reflexivity.
Qed.
