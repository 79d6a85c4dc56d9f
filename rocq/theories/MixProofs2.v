(** Multiplication of polynomials with different coefficient types: from the converted operands to the operands. *)
From Coq Require Import ZArith List Bool String Arith Lia Permutation Sorted.
From Verif Require Import Base KpackModel KpackSpec KpackProofs P_Kpack IntModel IntSpec IntProofs SymModel SymSpec SymProofs P_Sym PMonModel PMonSpec PMonProofs PMonProofs2
  KeyOps SeriesModel SeriesModel2 SeriesSpec SeriesProofs SeriesProofs2 SeriesProofs3 SeriesProofs4 SeriesProofs5 SeriesProofs6
  PolyModel PolySpec PolyProofs PolyProofs6 PolyProofs7 MixModel MixSpec MixProofs.
Import ListNotations.
Open Scope Z_scope.
Open Scope res_scope.
Local Notation len := List.length.

(** ** Sorting *)
Lemma pick_all_seq {A} (l : list A) : forall pre, pick_all (pre ++ l) (seq (len pre) (len l)) = l.
Proof.
  unfold pick_all. induction l as [|a l IH]; intros pre; cbn [len seq flat_map]; [reflexivity|].
  rewrite nth_error_app2 by lia. rewrite Nat.sub_diag. cbn [nth_error app]. f_equal.
  specialize (IH (pre ++ [a])). rewrite <- app_assoc, app_length in IH. cbn [app len] in IH. rewrite Nat.add_1_r in IH. exact IH.
Qed.
Lemma pick_all_perm {A} (l : list A) is : Permutation is (seq 0 (len l)) -> Permutation (pick_all l is) l.
Proof. intros P. eapply Permutation_trans; [apply Permutation_flat_map; exact P|]. pose proof (pick_all_seq l []) as H. cbn [app len] in H. unfold pick_all in H. rewrite H. apply Permutation_refl. Qed.
Lemma sorted_map {A} (f : A -> Z) l : StronglySorted Z.le (map f l) -> StronglySorted (fun a b => f a <= f b) l.
Proof.
  induction l as [|a l IH]; intros H; [constructor|]. cbn [map] in H. apply StronglySorted_inv in H as [S F]. constructor; [apply IH; exact S|].
  rewrite Forall_map in F. exact F.
Qed.

Section Env.
Context {K C1 C2 C Tag : Type} (KO : key_ops K) (KS : key_sem K) (E : mix_env K C1 C2 Tag).
Lemma same_env_ok x y : mix_env_ok KO KS E -> env_ok KO KS (same_env (C := C) E x y).
Proof.
  intros [EC EP]. split; cbn [same_env me_check me_sort].
  - exact EC.
  - intros A f l. unfold sort_by. apply pick_all_perm. destruct (EP (map f l)) as [P _]. rewrite map_length in P. exact P.
  - intros A f l. unfold sort_by. apply sorted_map. rewrite <- pick_all_map. apply (EP (map f l)).
Qed.
End Env.

(** ** Converted series *)
Section Conv.
Context {K C C' Tag : Type} (KO : key_ops K) (KS : key_sem K) (CO : cf_ops C) (CO' : cf_ops C') (f : C' -> C) (EM : cf_embedding CO' CO f).
Notation mapc := (@mapc K C C' Tag f).
Lemma in_mapc k c (s : series K C' Tag) : In (k, c) (terms (mapc s)) <-> exists c', In (k, c') (terms s) /\ c = f c'.
Proof.
  rewrite terms_mapc, in_map_iff. split.
  - intros ([k' c'] & [= <- <-] & I). exists c'. auto.
  - intros (c' & I & ->). exists (k, c'). auto.
Qed.
Lemma wf_mapc (s : series K C' Tag) : wf KO KS CO' s -> wf KO KS CO (mapc s).
Proof.
  intros W. split.
  - apply (wf_ss _ _ _ _ W).
  - apply (wf_log2 _ _ _ _ W).
  - cbn [mapc s_tables s_log2]. rewrite map_length. apply (wf_tables _ _ _ _ W).
  - rewrite terms_mapc, fst_gt. apply (wf_keys _ _ _ _ W).
  - intros k c I. apply in_mapc in I as (c' & I & _). apply (wf_valid _ _ _ _ W k c' I).
  - intros k c I. apply in_mapc in I as (c' & I & ->). intros Z. apply (wf_nonzero _ _ _ _ W k c' I). apply (emb_nonzero _ _ _ EM). exact Z.
  - intros i t k c N I. cbn [mapc s_tables] in N. rewrite nth_error_map in N. destruct (nth_error (s_tables s) i) as [t'|] eqn:NE; [|discriminate].
    cbn in N. injection N as <-. apply in_map_iff in I as ([k' c'] & [= <- <-] & I). apply (wf_segment _ _ _ _ W i t' k' c' NE I).
  - intros L t I. cbn [mapc s_tables] in I. apply in_map_iff in I as (t' & <- & I). rewrite map_length. apply (wf_max _ _ _ _ W L t' I).
Qed.
Lemma csum_map l : csum CO (map f l) = f (csum CO' l).
Proof. unfold csum. induction l as [|c l IH]; cbn [map fold_right]; [symmetry; apply (emb_zero _ _ _ EM)|]. rewrite IH. symmetry. apply (emb_add _ _ _ EM). Qed.
Lemma psum_map (P : K -> bool) l : psum CO P (map (gt f) l) = f (psum CO' P l).
Proof.
  unfold psum. rewrite <- csum_map. f_equal. rewrite map_map. induction l as [|e l IH]; [reflexivity|]. cbn [map filter gt fst snd].
  destruct (P (fst e)); cbn [map snd fst]; rewrite IH; reflexivity.
Qed.
Lemma vden_mapc s Q : vden KS CO (mapc s) Q = f (vden KS CO' s Q).
Proof. unfold vden. rewrite terms_mapc. apply psum_map. Qed.
Lemma coef_mapc us s ws : coef KS CO us (mapc s) ws = f (coef KS CO' us s ws).
Proof. unfold coef. rewrite terms_mapc. apply psum_map. Qed.
Lemma unrep_mapc u s : unrep KS u (mapc s) <-> unrep KS u s.
Proof.
  unfold unrep. split.
  - intros (k & c & I & N). apply in_mapc in I as (c' & I & _). exists k, c'. auto.
  - intros (k & c & I & N). exists k, (f c). split; [apply in_mapc; eauto|exact N].
Qed.
Lemma degree_unrep_mapc sel u s : degree_unrep KS sel u (mapc s) <-> degree_unrep KS sel u s.
Proof.
  unfold degree_unrep. split.
  - intros (k & c & I & N). apply in_mapc in I as (c' & I & _). exists k, c'. auto.
  - intros (k & c & I & N). exists k, (f c). split; [apply in_mapc; eauto|exact N].
Qed.
Lemma over_u_mapc u s a : over_u KO KS CO' u s a -> over_u KO KS CO u (mapc s) (mapc a).
Proof.
  intros (W & S & L & D). split; [apply wf_mapc, W|]. split; [exact S|]. split; [rewrite !terms_mapc, !map_length; exact L|]. intros ws. rewrite !coef_mapc, D. reflexivity.
Qed.
End Conv.

Section Two.
Context {K C1 C2 C Tag : Type} (KO : key_ops K) (KS : key_sem K) (CO1 : cf_ops C1) (CO2 : cf_ops C2) (CO : cf_ops C) (cmul : mix_mul C1 C2 C)
  (PO1 : tbl_policy (K * C1)) (PO2 : tbl_policy (K * C2)) (PO : tbl_policy (K * C)) (TO : tag_ops Tag) (E : mix_env K C1 C2 Tag) (f1 : C1 -> C) (f2 : C2 -> C).
Hypothesis KL : key_laws KO KS.
Hypothesis CL1 : cf_laws CO1.
Hypothesis CL2 : cf_laws CO2.
Hypothesis CL : cf_laws CO.
Hypothesis EO : mix_env_ok KO KS E.
Hypothesis EM1 : cf_embedding CO1 CO f1.
Hypothesis EM2 : cf_embedding CO2 CO f2.
Hypothesis HM : forall a b, mm_mul cmul a b = c_mul CO (f1 a) (f2 b).
Hypothesis HF : forall c a b, mm_fma cmul c a b = c_fma CO c (f1 a) (f2 b).
Variable sel : string -> bool.
Variable lim : Z.
Variable t : option (trunc K).
Notation mc1 := (@mapc K C C1 Tag f1).
Notation mc2 := (@mapc K C C2 Tag f2).
Notation good x y r := (mul_good KO KS CO TO sel lim t (mc1 x) (mc2 y) r).

Lemma extended {C'} (CO' : cf_ops C') (PO' : tbl_policy (K * C')) (CL' : cf_laws CO') u (s : series K C' Tag) m : sorted_set u -> wf KO KS CO' s -> ins_map_ok (len (s_ss s)) m -> insert_all (ins_at m) 0 (s_ss s) = u -> incl (s_ss s) u ->
  (exists a, extend_to KO CO' PO' TO (tag_default TO) true (fun c => c) u s m = Ok a /\ over_u KO KS CO' u s a /\ (forall Q, vden KS CO' a Q = vden KS CO' s (fun v => Q (spread (s_ss s) u v)))) \/
  ((extend_to KO CO' PO' TO (tag_default TO) true (fun c => c) u s m = Throw overflow_error \/ extend_to KO CO' PO' TO (tag_default TO) true (fun c => c) u s m = Throw safe_cast_failure) /\ (unrep KS u s \/ full (s_log2 s) (len (terms s)))).
Proof.
  intros SU W MO EI IS. destruct (extend_ok KO KS CO' CO' PO' TO KL CL' (fun c => c) eq_refl (fun _ _ => eq_refl) (tag_default TO) true s m u W MO EI SU (or_introl eq_refl)) as [(a & Ea & Wa & Sa & _ & _ & Da & Na)|[EE H]].
  - left. exists a. split; [exact Ea|]. split; [|exact Da]. split; [exact Wa|]. split; [exact Sa|]. split; [exact Na|]. intros ws.
    rewrite !coef_nden. unfold nden at 1. rewrite Da, Sa. apply (vden_spread KS CO' u u s (fun x => vec_eqb x ws) IS).
  - right. split; [exact EE|]. exact H.
Qed.
Lemma not_extended {C'} (CO' : cf_ops C') u (s : series K C' Tag) : wf KO KS CO' s -> s_ss s = u ->
  over_u KO KS CO' u s s /\ (forall Q, vden KS CO' s Q = vden KS CO' s (fun v => Q (spread (s_ss s) u v))).
Proof.
  intros W ES. split; [split; [exact W|]; split; [exact ES|]; split; [lia|reflexivity]|]. intros Q. unfold vden, psum. f_equal. f_equal.
  apply filter_ext_in. intros [k c] I. cbn [fst]. rewrite <- ES. f_equal. symmetry. eapply spread_exps; eauto.
Qed.

Lemma mix_impl_ok (x : series K C1 Tag) (y : series K C2 Tag) : wf KO KS CO1 x -> wf KO KS CO2 y -> Z.of_nat (len (s_ss x) + len (s_ss y)) <= imax size_t ->
  (forall u, union_of (s_ss x) (s_ss y) u -> match t with None => True | Some t => trunc_exact KS sel lim u t end) ->
  good x y (mix_impl KO CO1 CO2 CO cmul PO1 PO2 PO TO E t x y).
Proof.
  intros WX WY SZ TE.
  assert (FIN : forall u a b, union_of (s_ss x) (s_ss y) u -> over_u KO KS CO1 u x a -> over_u KO KS CO2 u y b ->
    (forall Q, vden KS CO1 a Q = vden KS CO1 x (fun v => Q (spread (s_ss x) u v))) -> (forall Q, vden KS CO2 b Q = vden KS CO2 y (fun v => Q (spread (s_ss y) u v))) ->
    good x y (mix_identical_ss KO CO cmul PO TO E t a b)).
  { intros u a b UN OA OB DA DB. rewrite <- (mix_identical_map KO CO cmul PO TO E f1 f2 HM HF t a b).
    apply (fin_ok KO KS CO PO TO (same_env E a b) KL CL (same_env_ok KO KS E a b EO) sel lim t (mc1 x) (mc2 y) (wf_mapc KO KS CO CO1 f1 EM1 x WX) (wf_mapc KO KS CO CO2 f2 EM2 y WY) TE u).
    - exact UN.
    - apply (over_u_mapc KO KS CO CO1 f1 EM1). exact OA.
    - apply (over_u_mapc KO KS CO CO2 f2 EM2). exact OB.
    - intros Q. rewrite !(vden_mapc KS CO CO1 f1 EM1), DA. reflexivity.
    - intros Q. rewrite !(vden_mapc KS CO CO2 f2 EM2), DB. reflexivity. }
  unfold mix_impl. destruct (ss_eqb (s_ss x) (s_ss y)) eqn:ES.
  - apply ss_eqb_iff in ES. destruct (not_extended CO1 (s_ss x) x WX eq_refl) as [OA DA]. destruct (not_extended CO2 (s_ss x) y WY (eq_sym ES)) as [OB DB].
    apply (FIN (s_ss x)); auto. split; [apply (wf_ss _ _ _ _ WX)|]. intros z. rewrite <- ES. tauto.
  - destruct (merge_symbol_sets_exact (s_ss x) (s_ss y) (wf_ss _ _ _ _ WX) (wf_ss _ _ _ _ WY) SZ) as (u & mx & my & EM & SU & IU & IX & IY & MX & MY & _).
    rewrite EM. cbn [bind]. assert (UN : union_of (s_ss x) (s_ss y) u) by (split; auto).
    assert (CX' : incl (s_ss x) u) by (intros z Iz; apply IU; auto).
    assert (CY' : incl (s_ss y) u) by (intros z Iz; apply IU; auto).
    pose proof (extended CO1 PO1 CL1 u x mx SU WX MX IX CX') as EXX. pose proof (extended CO2 PO2 CL2 u y my SU WY MY IY CY') as EXY.
    assert (ERX : forall g : series K C1 Tag -> res (series K C Tag), (extend_to KO CO1 PO1 TO (tag_default TO) true (fun c => c) u x mx = Throw overflow_error \/ extend_to KO CO1 PO1 TO (tag_default TO) true (fun c => c) u x mx = Throw safe_cast_failure) -> (unrep KS u x \/ full (s_log2 x) (len (terms x))) ->
      good x y (bind (extend_to KO CO1 PO1 TO (tag_default TO) true (fun c => c) u x mx) g)).
    { intros g H1 H2. exists u. split; [exact UN|]. right. split; [destruct H1 as [H1|H1]; rewrite H1; cbn [bind]; auto|]. rewrite unrep_mapc, terms_mapc, map_length. tauto. }
    assert (ERY : forall g : series K C2 Tag -> res (series K C Tag), (extend_to KO CO2 PO2 TO (tag_default TO) true (fun c => c) u y my = Throw overflow_error \/ extend_to KO CO2 PO2 TO (tag_default TO) true (fun c => c) u y my = Throw safe_cast_failure) -> (unrep KS u y \/ full (s_log2 y) (len (terms y))) ->
      good x y (bind (extend_to KO CO2 PO2 TO (tag_default TO) true (fun c => c) u y my) g)).
    { intros g H1 H2. exists u. split; [exact UN|]. right. split; [destruct H1 as [H1|H1]; rewrite H1; cbn [bind]; auto|]. rewrite !unrep_mapc, !terms_mapc, !map_length. tauto. }
    assert (BOTH : good x y (a <- extend_to KO CO1 PO1 TO (tag_default TO) true (fun c => c) u x mx ;; b <- extend_to KO CO2 PO2 TO (tag_default TO) true (fun c => c) u y my ;; mix_identical_ss KO CO cmul PO TO E t a b)).
    { destruct EXX as [(a & Ea & Oa & Da)|[H1 H2]]; [|apply ERX; assumption]. rewrite Ea. cbn [bind].
      destruct EXY as [(b & Eb & Ob & Db)|[H1 H2]]; [|apply ERY; assumption]. rewrite Eb. cbn [bind]. apply (FIN u); auto. }
    destruct mx as [|p1 mx'], my as [|p2 my']; cbn [map_empty]; try exact BOTH.
    + destruct EXY as [(b & Eb & Ob & Db)|[H1 H2]]; [|apply ERY; assumption]. rewrite Eb. cbn [bind].
      destruct (not_extended CO1 u x WX) as [OA DA]; [exact (eq_trans (eq_sym (insert_nil _ 0)) IX)|]. apply (FIN u); auto.
    + destruct EXX as [(a & Ea & Oa & Da)|[H1 H2]]; [|apply ERX; assumption]. rewrite Ea. cbn [bind].
      destruct (not_extended CO2 u y WY) as [OB DB]; [exact (eq_trans (eq_sym (insert_nil _ 0)) IY)|]. apply (FIN u); auto.
Qed.
End Two.
