(** Multiplication without any law of the coefficients: operands over different symbols. *)
From Coq Require Import ZArith List Bool String Arith Lia Permutation Sorted.
From Verif Require Import Base SymSpec SymModel SymProofs P_Sym PMonSpec KeyOps SeriesModel SeriesModel2 SeriesSpec PolyModel PolySpec PolyProofs PolyProofs2 SeriesProofs SeriesProofs2 SeriesProofs3 SeriesProofs4 SeriesProofs5 SeriesEval
  PolyProofs5 PolyProofs6 PolyProofs7 LfSpec LfProofs LfProofs2 LfProofs3.
Import ListNotations.
Open Scope Z_scope.
Open Scope res_scope.
Local Notation len := List.length.

Section S.
Context {K C Tag : Type} (KO : key_ops K) (KS : key_sem K) (CO : cf_ops C) (PO : tbl_policy (K * C)) (TO : tag_ops Tag) (E : mul_env K C Tag).
Hypothesis KL : key_laws KO KS.
Hypothesis LL : light_laws CO.
Hypothesis EO : env_ok KO KS E.
Notation term := (K * C)%type.
Notation series := (series K C Tag).
Notation LWF := (lwf KO KS CO).
Notation entry := (entry KS).
Notation factors := (factors KS).
Notation vt := (vt KS).

Lemma in_vt us (s : series) ws c : wf KO KS CO s -> incl (s_ss s) us -> (In (ws, c) (vt us s) <-> entry us s ws = Some c).
Proof.
  intros W I. rewrite (entry_in KO KS CO KL us s ws c W I). unfold SeriesEval.vt. rewrite in_map_iff. split.
  - intros ([k d] & [= <- <-] & J). exists k. auto.
  - intros (k & J & <-). exists (k, c). auto.
Qed.
Lemma vt_keys us (s : series) : wf KO KS CO s -> incl (s_ss s) us -> NoDup (vt us s).
Proof.
  intros W I. unfold SeriesEval.vt. apply (NoDup_map_inv fst). rewrite map_map. cbn [fst]. pose proof (wf_keys _ _ _ _ W) as N. pose proof (fun k c => wf_valid _ _ _ _ W k c) as V.
  assert (H : forall l, incl l (terms s) -> NoDup (map fst l) -> NoDup (map (fun e => spread (s_ss s) us (ks_exps KS (len (s_ss s)) (fst e))) l)); [|apply H; [apply incl_refl|exact N]].
  induction l as [|[k c] l IH]; intros HI HN; [constructor|]. cbn [map fst] in *. inversion HN as [|? ? NI HN']; subst. constructor; [|apply IH; auto; intros z Iz; apply HI; right; exact Iz].
  intros J. apply in_map_iff in J as ([k' c'] & EQ & J). cbn [fst] in EQ. assert (I1 : In (k, c) (terms s)) by (apply HI; left; reflexivity). assert (I2 : In (k', c') (terms s)) by (apply HI; right; exact J).
  destruct (entry_key KO KS CO KL us s k k' c c' W I (V k c I1) I2 (eq_sym EQ)) as [-> _]. apply NI. apply in_map_iff. exists (k', c'). auto.
Qed.

(** s written over the symbols u. *)
Definition lf_over (u : symbol_set) (s a : series) : Prop :=
  LWF a /\ s_ss a = u /\ len (terms a) = len (terms s) /\ forall us, incl u us -> Permutation (vt us a) (vt us s).
Lemma over_entry u (s a : series) : LWF s -> LWF a -> s_ss a = u -> incl (s_ss s) u -> len (terms a) = len (terms s) -> (forall us ws, incl u us -> entry us a ws = entry us s ws) -> lf_over u s a.
Proof.
  intros WS WA SA I L H. split; [exact WA|]. split; [exact SA|]. split; [exact L|]. intros us IU. pose proof (lw_wf _ _ _ _ WA) as WA0. pose proof (lw_wf _ _ _ _ WS) as WS0.
  assert (I1 : incl (s_ss a) us) by (rewrite SA; exact IU). assert (I2 : incl (s_ss s) us) by (intros z Iz; auto).
  apply NoDup_Permutation; [apply vt_keys; auto|apply vt_keys; auto|]. intros [ws c]. rewrite !in_vt by assumption. rewrite H by assumption. tauto.
Qed.
Lemma over_self (s : series) u : LWF s -> s_ss s = u -> lf_over u s s.
Proof. intros W ES. split; [exact W|]. split; [exact ES|]. split; [reflexivity|]. intros us _. apply Permutation_refl. Qed.

Lemma over_tm u (s a : series) k c : sorted_set u -> lf_over u s a -> In (k, c) (terms a) -> exists k', In (k', c) (terms s) /\ spread (s_ss s) u (ks_exps KS (len (s_ss s)) k') = ks_exps KS (len u) k.
Proof.
  intros SU (WA & SA & _ & P) J. pose proof (lw_wf _ _ _ _ WA) as WA0. assert (X : In (ks_exps KS (len u) k, c) (vt u a)).
  { unfold SeriesEval.vt. apply in_map_iff. exists (k, c). split; [|exact J]. cbn [fst snd]. rewrite <- SA at 1. rewrite SA at 1. rewrite <- SA. rewrite (spread_exps KO KS CO KL a k c WA0 J). reflexivity. }
  apply (Permutation_in _ (P u (incl_refl u))) in X. unfold SeriesEval.vt in X. apply in_map_iff in X as ([k' c'] & [= EQ <-] & I). exists k'. auto.
Qed.
Lemma over_tm' u (s a : series) k c : sorted_set u -> lf_over u s a -> In (k, c) (terms s) -> exists k', In (k', c) (terms a) /\ ks_exps KS (len u) k' = spread (s_ss s) u (ks_exps KS (len (s_ss s)) k).
Proof.
  intros SU (WA & SA & _ & P) J. pose proof (lw_wf _ _ _ _ WA) as WA0. assert (X : In (spread (s_ss s) u (ks_exps KS (len (s_ss s)) k), c) (vt u s)).
  { unfold SeriesEval.vt. apply in_map_iff. exists (k, c). auto. }
  apply (Permutation_in _ (Permutation_sym (P u (incl_refl u)))) in X. unfold SeriesEval.vt in X. apply in_map_iff in X as ([k' c'] & [= EQ <-] & I). exists k'. split; [exact I|]. cbn [fst] in EQ. rewrite <- EQ.
  rewrite <- SA. symmetry. eapply spread_exps; eauto.
Qed.
Lemma over_reps u (s a : series) : sorted_set u -> lf_over u s a -> ~ unrep KS u s.
Proof.
  intros SU O (k & c & J & N). destruct (over_tm' u s a k c SU O J) as (k' & J' & X). apply N. rewrite <- X. apply (kl_fits _ _ KL).
  destruct O as (WA & SA & _). rewrite <- SA. eapply wf_valid; [apply (lw_wf _ _ _ _ WA)|eauto].
Qed.

Lemma pairs_bad u (x y a b : series) : sorted_set u -> lf_over u x a -> lf_over u y b -> ~ all_pairs KS u (terms a) (terms b) -> product_unrep KS u x y.
Proof.
  intros SU OA OB NA. pose proof OA as (WA & SA & _). pose proof OB as (WB & SB & _). pose proof (lw_wf _ _ _ _ WA) as WA0. pose proof (lw_wf _ _ _ _ WB) as WB0.
  destruct (some_bad (fun p : term * term => ks_fits KS (vadd (ks_exps KS (len u) (fst (fst p))) (ks_exps KS (len u) (fst (snd p)))) /\ ks_total_ok KS (vsum (ks_exps KS (len u) (fst (fst p))) + vsum (ks_exps KS (len u) (fst (snd p))))) (list_prod (terms a) (terms b))) as [G|(p & I & B)].
  - intros [[k1 c1] [k2 c2]] I. apply in_prod_iff in I as [I1 I2]. cbn [fst snd]. apply (pair_dec KO KS KL); [rewrite <- SA|rewrite <- SB]; eapply wf_valid; eauto.
  - exfalso. apply NA. intros p q Ip Iq. apply (G (p, q)). apply in_prod_iff. auto.
  - destruct p as [[k1 c1] [k2 c2]]. apply in_prod_iff in I as [I1 I2]. cbn [fst snd] in B.
    destruct (over_tm u x a k1 c1 SU OA I1) as (k1' & J1 & E1). destruct (over_tm u y b k2 c2 SU OB I2) as (k2' & J2 & E2).
    exists (k1', c1), (k2', c2). split; [exact J1|]. split; [exact J2|]. cbn [fst]. rewrite E1, E2. exact B.
Qed.
Lemma pairs_good u (x y a b : series) : sorted_set u -> lf_over u x a -> lf_over u y b -> all_pairs KS u (terms a) (terms b) -> ~ product_unrep KS u x y.
Proof.
  intros SU OA OB A ([k1 c1] & [k2 c2] & I1 & I2 & B). cbn [fst] in B. apply B.
  destruct (over_tm' u x a k1 c1 SU OA I1) as (k1' & J1 & E1). destruct (over_tm' u y b k2 c2 SU OB I2) as (k2' & J2 & E2).
  rewrite <- E1, <- E2. apply (A (k1', c1) (k2', c2)); auto.
Qed.

Definition matching us (x y : series) ws (p : term * term) : bool :=
  vec_eqb (vadd (spread (s_ss x) us (ks_exps KS (len (s_ss x)) (fst (fst p)))) (spread (s_ss y) us (ks_exps KS (len (s_ss y)) (fst (snd p))))) ws.
Lemma factors_vt us (x y : series) ws : factors us x y ws =
  map (fun p => (snd (fst p), snd (snd p))) (filter (fun p => vec_eqb (vadd (fst (fst p)) (fst (snd p))) ws) (list_prod (vt us x) (vt us y))).
Proof.
  unfold LfSpec.factors, SeriesEval.vt. rewrite list_prod_map. induction (list_prod (terms x) (terms y)) as [|p l IH]; [reflexivity|]. cbn [map filter fst snd].
  destruct (vec_eqb _ _); cbn [map fst snd]; rewrite IH; reflexivity.
Qed.
Lemma factors_perm us (x y a b : series) ws : Permutation (vt us a) (vt us x) -> Permutation (vt us b) (vt us y) -> Permutation (factors us a b ws) (factors us x y ws).
Proof. intros A B. rewrite !factors_vt. apply Permutation_map, filter_perm, list_prod_perm; assumption. Qed.

Section T.
Variables (sel : string -> bool) (lim : Z) (t : option (trunc K)).
Definition kept_at (us : symbol_set) (ws : list Z) : bool := match t with None => true | Some _ => degree_of sel us ws <=? lim end.

Lemma product_entry u us (a b r : series) ws : wf KO KS CO a -> wf KO KS CO b -> s_ss a = u -> s_ss b = u -> sorted_set us -> incl u us ->
  done_lf KO KS CO TO sel lim t u a b r ->
  exists l, Permutation l (if kept_at us ws then factors us a b ws else []) /\ entry us r ws = accumulated_nonzero CO l.
Proof.
  intros WA WB SA SB SUS IU (WR & SR & _ & AP & PL & _). pose proof (lw_wf _ _ _ _ WR) as WR0. assert (IR : incl (s_ss r) us) by (rewrite SR; exact IU).
  assert (SU : sorted_set u) by (rewrite <- SA; apply (wf_ss _ _ _ _ WA)). assert (NU : NoDup u) by (apply sorted_set_nodup; exact SU). assert (NUS : NoDup us) by (apply sorted_set_nodup; exact SUS).
  assert (V1 : all_valid KS u (terms a)). { intros [k c] I. rewrite <- SA. eapply (wf_valid _ _ _ _ WA); eauto. }
  assert (V2 : all_valid KS u (terms b)). { intros [k c] I. rewrite <- SB. eapply (wf_valid _ _ _ _ WB); eauto. }
  assert (PK : forall p, In p (list_prod (terms a) (terms b)) -> ks_valid KS (len u) (fst (pterm KO CO u p)) /\
     vadd (spread u us (ks_exps KS (len u) (fst (fst p)))) (spread u us (ks_exps KS (len u) (fst (snd p)))) = spread u us (ks_exps KS (len u) (fst (pterm KO CO u p))) /\
     D KS sel u (fst p) + D KS sel u (snd p) = degree_of sel us (spread u us (ks_exps KS (len u) (fst (pterm KO CO u p))))).
  { intros p I. pose proof (all_pairs_ok KS u (terms a) (terms b) p V1 V2 AP I) as OK. destruct (pterm_ok KO KS CO KL u p OK) as (_ & V & X & _). destruct OK as (Va & Vb & _).
    pose proof (kl_len _ _ KL _ _ Va) as La. pose proof (kl_len _ _ KL _ _ Vb) as Lb. pose proof (kl_len _ _ KL _ _ V) as Lp.
    split; [exact V|]. split; [rewrite X; symmetry; apply spread_vadd; assumption|]. rewrite degree_spread by auto. rewrite X, degree_vadd by assumption. reflexivity. }
  assert (MF : factors us a b ws = map cpair (filter (matching us a b ws) (list_prod (terms a) (terms b)))) by reflexivity.
  destruct (filter (matching us a b ws) (list_prod (terms a) (terms b))) as [|p0 rest] eqn:FM.
  - exists []. split; [rewrite MF; destruct (kept_at us ws); constructor|]. cbn. destruct (entry us r ws) as [c|] eqn:EE; [|reflexivity]. exfalso.
    apply (entry_in KO KS CO KL us r ws c WR0 IR) in EE as (k & J & EW). pose proof (proj2 (sget_in KO KS CO KL r k c WR0) J) as G. unfold sget in G. destruct (PL k) as (l & P & GL). rewrite G in GL.
    destruct l as [|p l]; [discriminate|]. assert (I : In p (filter (at_key KO CO u k) (filter (keep (D KS sel u) lim t) (list_prod (terms a) (terms b))))) by (eapply Permutation_in; [exact P|left; reflexivity]).
    apply filter_In in I as [I AK]. apply filter_In in I as [I _]. apply (kl_eqb _ _ KL) in AK. destruct (PK p I) as (_ & X & _). rewrite <- AK in X.
    assert (In p (filter (matching us a b ws) (list_prod (terms a) (terms b)))); [|rewrite FM in *; contradiction]. apply filter_In. split; [exact I|]. unfold matching. rewrite SA, SB, X. apply vec_eqb_iff. rewrite <- SR. exact EW.
  - assert (I0 : In p0 (list_prod (terms a) (terms b)) /\ matching us a b ws p0 = true) by (apply filter_In; rewrite FM; left; reflexivity). destruct I0 as [I0 M0].
    unfold matching in M0. rewrite SA, SB in M0. apply vec_eqb_iff in M0. destruct (PK p0 I0) as (Vk & X0 & D0). set (k := fst (pterm KO CO u p0)) in *. rewrite X0 in M0.
    destruct (PL k) as (l & P & GL). exists (map cpair l). split.
    + assert (Q : filter (at_key KO CO u k) (filter (keep (D KS sel u) lim t) (list_prod (terms a) (terms b))) = if kept_at us ws then p0 :: rest else []).
      { rewrite <- FM. clear FM MF P GL. assert (H : forall q, In q (list_prod (terms a) (terms b)) -> at_key KO CO u k q = matching us a b ws q /\ (at_key KO CO u k q = true -> keep (D KS sel u) lim t q = kept_at us ws)).
        { intros q Iq. destruct (PK q Iq) as (Vq & Xq & Dq). assert (B : at_key KO CO u k q = true <-> matching us a b ws q = true).
          { unfold at_key, matching. rewrite (kl_eqb _ _ KL), vec_eqb_iff, SA, SB, Xq, <- M0. split; [intros ->; reflexivity|]. intros EQ. apply spread_inj in EQ; auto.
            - apply (kl_inj _ _ KL (len u)); auto.
            - apply (kl_len _ _ KL); exact Vq.
            - apply (kl_len _ _ KL); exact Vk. }
          split; [apply eq_iff_eq_true; exact B|]. intros AK. apply (kl_eqb _ _ KL) in AK. unfold keep, within, kept_at. destruct t; [|reflexivity]. rewrite <- AK in Dq. fold k in Dq. rewrite M0 in Dq. rewrite <- Dq. apply eq_iff_eq_true. rewrite !Z.leb_le. lia. }
        revert H. generalize (list_prod (terms a) (terms b)). intros L H. destruct (kept_at us ws).
        - induction L as [|q L IH]; [reflexivity|]. cbn [filter]. destruct (H q (or_introl eq_refl)) as [H1 H2]. rewrite <- H1. rewrite <- IH by (intros q' I'; apply H; right; exact I').
          destruct (at_key KO CO u k q) eqn:AK; [rewrite (H2 eq_refl); cbn [filter]; rewrite AK; reflexivity|]. destruct (keep _ lim t q); cbn [filter]; [rewrite AK|]; reflexivity.
        - induction L as [|q L IH]; [reflexivity|]. cbn [filter]. destruct (H q (or_introl eq_refl)) as [H1 H2]. rewrite <- (IH (fun q' I' => H q' (or_intror I'))).
          destruct (at_key KO CO u k q) eqn:AK; [rewrite (H2 eq_refl); reflexivity|]. destruct (keep _ lim t q); cbn [filter]; [rewrite AK|]; reflexivity. }
      rewrite Q in P. rewrite MF. destruct (kept_at us ws); [apply Permutation_map; exact P|]. apply Permutation_sym, Permutation_nil in P. subst l. constructor.
    + rewrite <- GL. fold (sget KO r k). apply (entry_at KO KS CO KL us r k ws WR0 IR); [rewrite SR; exact Vk|]. rewrite SR. exact M0.
Qed.

(** What the multiplication of x by y, in this order, returns. *)
Definition mul_lf_good (x y : series) (res : res series) : Prop :=
  exists u, union_of (s_ss x) (s_ss y) u /\
  ((exists r, res = Ok r /\ LWF r /\ s_ss r = u /\ s_tag r = tag_default TO /\ ~ product_unrep KS u x y /\ (~ unrep KS u x /\ ~ unrep KS u y) /\
     (forall us ws, sorted_set us -> incl u us -> exists l, Permutation l (if kept_at us ws then factors us x y ws else []) /\ entry us r ws = accumulated_nonzero CO l) /\
     (len (terms r) <= len (terms x) * len (terms y))%nat) \/
   ((res = Throw overflow_error \/ res = Throw safe_cast_failure) /\
    (unrep KS u x \/ unrep KS u y \/ product_unrep KS u x y \/ (t <> None /\ (degree_unrep KS sel u x \/ degree_unrep KS sel u y)) \/
     full (s_log2 x) (len (terms x)) \/ full (s_log2 y) (len (terms y)) \/
     exists lg, (lg <= max_log2_size)%nat /\ max_table_size lg < Z.of_nat (len (terms x) * len (terms y))))).

Lemma fin_lf (x y : series) :
  (forall u, union_of (s_ss x) (s_ss y) u -> match t with None => True | Some t => trunc_exact KS sel lim u t end) ->
  forall u (a b : series), union_of (s_ss x) (s_ss y) u -> lf_over u x a -> lf_over u y b ->
    mul_lf_good x y (poly_mul_identical_ss KO CO PO TO E t a b).
Proof.
  intros TE u a b UN OA OB. exists u. split; [exact UN|]. pose proof UN as [SU IU].
  pose proof OA as (WA & SA & NA & PA). pose proof OB as (WB & SB & NB & PB). pose proof (lw_wf _ _ _ _ WA) as WA0. pose proof (lw_wf _ _ _ _ WB) as WB0.
  destruct (mul_same_lf KO KS CO PO TO E KL LL EO sel lim t u (TE u UN) a b WA0 WB0 SA SB) as [(r & ER & DN)|[ER B]].
  - left. exists r. pose proof DN as (WR & SR & TR & AP & _ & LR). split; [exact ER|]. split; [exact WR|]. split; [exact SR|]. split; [exact TR|].
    split; [apply (pairs_good u x y a b); auto|]. split; [split; [apply (over_reps u x a)|apply (over_reps u y b)]; auto|]. split; [|rewrite <- NA, <- NB; exact LR].
    intros us ws SUS IUS. destruct (product_entry u us a b r ws WA0 WB0 SA SB SUS IUS DN) as (l & P & H). exists l. split; [|exact H].
    destruct (kept_at us ws); [|exact P]. apply (Permutation_trans P). apply factors_perm; auto.
  - right. split; [left; exact ER|]. destruct B as [B|[[NT (e & I & B)]|(lg & L & B)]].
    + right. right. left. apply (pairs_bad u x y a b); auto.
    + right. right. right. left. split; [exact NT|]. destruct e as [k c]. cbn [fst] in B. destruct I as [I|I]; [left|right].
      * destruct (over_tm u x a k c SU OA I) as (k' & J & EJ). exists k', c. split; [exact J|]. rewrite EJ. exact B.
      * destruct (over_tm u y b k c SU OB I) as (k' & J & EJ). exists k', c. split; [exact J|]. rewrite EJ. exact B.
    + do 6 right. exists lg. split; [exact L|]. rewrite <- NA, <- NB. exact B.
Qed.

Lemma impl_lf (x y : series) : LWF x -> LWF y -> Z.of_nat (len (s_ss x) + len (s_ss y)) <= imax size_t ->
  (forall u, union_of (s_ss x) (s_ss y) u -> match t with None => True | Some t => trunc_exact KS sel lim u t end) ->
  mul_lf_good x y (poly_mul_impl KO CO PO TO E t x y).
Proof.
  intros WX WY SZ TE. pose proof (fin_lf x y TE) as FIN. pose proof (lw_wf _ _ _ _ WX) as WX0. pose proof (lw_wf _ _ _ _ WY) as WY0.
  unfold poly_mul_impl. destruct (ss_eqb (s_ss x) (s_ss y)) eqn:ES.
  - apply ss_eqb_iff in ES. apply (FIN (s_ss x)); [split; [apply (wf_ss _ _ _ _ WX0)|]; intros z; rewrite <- ES; tauto|apply over_self; auto|apply over_self; auto].
  - destruct (merge_symbol_sets_exact (s_ss x) (s_ss y) (wf_ss _ _ _ _ WX0) (wf_ss _ _ _ _ WY0) SZ) as (u & mx & my & EM & SU & IU & IX & IY & MX & MY & _).
    rewrite EM. cbn [bind]. assert (UN : union_of (s_ss x) (s_ss y) u) by (split; auto).
    assert (CX' : incl (s_ss x) u) by (intros z Iz; apply IU; auto).
    assert (CY' : incl (s_ss y) u) by (intros z Iz; apply IU; auto).
    assert (EX : forall (s : series) m, LWF s -> ins_map_ok (len (s_ss s)) m -> insert_all (ins_at m) 0 (s_ss s) = u -> incl (s_ss s) u ->
      (exists a, extend_to KO CO PO TO (tag_default TO) true (fun c => c) u s m = Ok a /\ lf_over u s a) \/
      ((extend_to KO CO PO TO (tag_default TO) true (fun c => c) u s m = Throw overflow_error \/ extend_to KO CO PO TO (tag_default TO) true (fun c => c) u s m = Throw safe_cast_failure) /\ (unrep KS u s \/ full (s_log2 s) (len (terms s))))).
    { intros s m W MO EI IS. destruct (extend_lf KO KS CO PO TO KL LL (tag_default TO) s m u W MO EI SU) as [(a & Ea & Wa & Sa & _ & _ & Da & Na)|[EE H]].
      - left. exists a. split; [exact Ea|]. apply over_entry; auto.
      - right. split; [exact EE|]. exact H. }
    pose proof (EX x mx WX MX IX CX') as EXX. pose proof (EX y my WY MY IY CY') as EXY.
    assert (ERX : forall f : series -> res series, (extend_to KO CO PO TO (tag_default TO) true (fun c => c) u x mx = Throw overflow_error \/ extend_to KO CO PO TO (tag_default TO) true (fun c => c) u x mx = Throw safe_cast_failure) -> (unrep KS u x \/ full (s_log2 x) (len (terms x))) ->
      mul_lf_good x y (bind (extend_to KO CO PO TO (tag_default TO) true (fun c => c) u x mx) f)).
    { intros f H1 H2. exists u. split; [exact UN|]. right. split; [destruct H1 as [H1|H1]; rewrite H1; cbn [bind]; auto|]. tauto. }
    assert (ERY : forall f : series -> res series, (extend_to KO CO PO TO (tag_default TO) true (fun c => c) u y my = Throw overflow_error \/ extend_to KO CO PO TO (tag_default TO) true (fun c => c) u y my = Throw safe_cast_failure) -> (unrep KS u y \/ full (s_log2 y) (len (terms y))) ->
      mul_lf_good x y (bind (extend_to KO CO PO TO (tag_default TO) true (fun c => c) u y my) f)).
    { intros f H1 H2. exists u. split; [exact UN|]. right. split; [destruct H1 as [H1|H1]; rewrite H1; cbn [bind]; auto|]. tauto. }
    assert (BOTH : mul_lf_good x y (a <- extend_to KO CO PO TO (tag_default TO) true (fun c => c) u x mx ;; b <- extend_to KO CO PO TO (tag_default TO) true (fun c => c) u y my ;; poly_mul_identical_ss KO CO PO TO E t a b)).
    { destruct EXX as [(a & Ea & Oa)|[H1 H2]]; [|apply ERX; assumption]. rewrite Ea. cbn [bind].
      destruct EXY as [(b & Eb & Ob)|[H1 H2]]; [|apply ERY; assumption]. rewrite Eb. cbn [bind]. apply (FIN u); auto. }
    destruct mx as [|p1 mx'], my as [|p2 my']; cbn [map_empty]; try exact BOTH.
    + destruct EXY as [(b & Eb & Ob)|[H1 H2]]; [|apply ERY; assumption]. rewrite Eb. cbn [bind].
      apply (FIN u); auto. apply over_self; [exact WX|]. exact (eq_trans (eq_sym (insert_nil _ 0)) IX).
    + destruct EXX as [(a & Ea & Oa)|[H1 H2]]; [|apply ERX; assumption]. rewrite Ea. cbn [bind].
      apply (FIN u); auto. apply over_self; [exact WY|]. exact (eq_trans (eq_sym (insert_nil _ 0)) IY).
Qed.

(** The operands are multiplied in the order in which the code multiplies them: the shorter one first. *)
Theorem switch_lf (x y : series) : LWF x -> LWF y -> Z.of_nat (len (s_ss x) + len (s_ss y)) <= imax size_t ->
  (forall u, union_of (s_ss x) (s_ss y) u -> match t with None => True | Some t => trunc_exact KS sel lim u t end) ->
  if (series_size x <=? series_size y)%nat then mul_lf_good x y (poly_mul_switch KO CO PO TO E t x y) else mul_lf_good y x (poly_mul_switch KO CO PO TO E t x y).
Proof.
  intros WX WY SZ TE. unfold poly_mul_switch. destruct (_ <=? _)%nat; apply impl_lf; auto; [rewrite Nat.add_comm; exact SZ|].
  intros u [SU IU]. apply TE. split; [exact SU|]. intros z. rewrite IU. tauto.
Qed.
End T.
End S.
