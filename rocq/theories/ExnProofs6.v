(** Proofs about ExnModel5.v: the extension of an operand which is interrupted, and the multiplication. *)
From Coq Require Import ZArith List Bool String Arith Sorted Permutation Lia Ring Ring_theory.
From Verif Require Import Base KpackModel KpackSpec KpackProofs P_Kpack IntModel IntSpec IntProofs SymModel SymSpec SymProofs P_Sym PMonModel PMonSpec PMonProofs KeyOps
  SeriesModel SeriesModel2 SeriesSpec SeriesProofs SeriesProofs2 SeriesProofs3 SeriesProofs4 SeriesProofs5 SeriesProofs6 P_Series P_Series2 PolyModel PolyModel2 SerModel SerSpec P_Ser P_Inv
  ExnModel ExnProofs ExnProofs2 P_Exn ExnProofs3 ExnModel5 ExnProofs5.
Import ListNotations.
Open Scope Z_scope.
Open Scope res_scope.
Local Notation len := List.length.

Section XE.
Context {K C Tag : Type} (KO : key_ops K) (KS : key_sem K) (CO : cf_ops C) (PO : tbl_policy (K * C)) (TO : tag_ops Tag).
Context (KL : key_laws KO KS) (CL : cf_laws CO).
Notation series := (series K C Tag).
Notation store := (@store K C Tag).
Notation WF := (wf KO KS CO).
Notation tbl := (table K C).

(** A series with the first terms of x. *)
Lemma prefix_tables : forall (ts : list tbl) l1 l2, List.concat ts = l1 ++ l2 -> exists ts', Forall2 thinner ts ts' /\ List.concat ts' = l1.
Proof.
  assert (TH : forall a b : tbl, thinner (a ++ b) a).
  { intros a b. split; [intros e J; apply in_or_app; auto|]. split; [rewrite map_app; apply nodup_app_l|rewrite app_length; lia]. }
  induction ts as [|t ts IH]; intros l1 l2 H; cbn [List.concat] in H.
  - symmetry in H. apply app_eq_nil in H as [-> ->]. exists []. split; [constructor|reflexivity].
  - destruct (Nat.le_gt_cases (len t) (len l1)) as [L|L].
    + assert (E1 : l1 = t ++ skipn (len t) l1).
      { rewrite <- (firstn_skipn (len t) l1) at 1. f_equal. apply (f_equal (firstn (len t))) in H. rewrite !firstn_app, Nat.sub_diag, firstn_all, firstn_O, app_nil_r in H. replace (len t - len l1)%nat with 0%nat in H by lia.
        cbn [firstn] in H. rewrite app_nil_r in H. symmetry. exact H. }
      rewrite E1, <- app_assoc in H. apply app_inv_head in H. destruct (IH _ _ H) as (ts' & F & E2). exists (t :: ts'). split; [constructor; [apply thinner_refl|exact F]|]. cbn [List.concat]. rewrite E2. symmetry. exact E1.
    + exists (l1 :: map (fun _ => []) ts). split.
      * constructor.
        -- assert (E1 : t = l1 ++ skipn (len l1) t).
           { rewrite <- (firstn_skipn (len l1) t) at 1. f_equal. apply (f_equal (firstn (len l1))) in H. rewrite !firstn_app, Nat.sub_diag, firstn_all, firstn_O, app_nil_r in H. replace (len l1 - len t)%nat with 0%nat in H by lia.
             cbn [firstn] in H. rewrite app_nil_r in H. exact H. }
           rewrite E1. apply TH.
        -- clear H IH. induction ts as [|u ts IH]; constructor; [apply (TH [] u)|exact IH].
      * cbn [List.concat]. replace (List.concat (map (fun _ : tbl => []) ts)) with (@nil (K * C)); [apply app_nil_r|]. clear. induction ts; auto.
Qed.
Lemma prefix_series (x : series) l1 l2 : WF x -> terms x = l1 ++ l2 -> exists x1 : series, WF x1 /\ terms x1 = l1 /\ s_log2 x1 = s_log2 x /\ s_ss x1 = s_ss x.
Proof. intros W H. destruct (prefix_tables _ _ _ H) as (ts & F & E). exists (set_tables x ts). split; [apply (thin_all KO KS CO x ts W F)|]. split; [exact E|]. split; reflexivity. Qed.

(** The destination is valid whenever the extension is interrupted. *)
Lemma ext_state to from rv u m (h : store) h' : to <> from -> WF (h from) -> ins_map_ok (len (s_ss (h from))) m -> insert_all (ins_at m) 0 (s_ss (h from)) = u -> sorted_set u ->
  x_extend_to KO CO PO TO to from rv u m h None h' -> h' to = h to \/ WF (h' to).
Proof.
  intros N W IM EU SU H. unfold x_extend_to in H. apply call_inv in H as [H|(_ & ->)]; [|auto]. apply res_inv in H; [|discriminate].
  destruct H as [(a & E & H)|(_ & _ & e & E)]; [|discriminate]. unfold set_symbol_set, series_default in E. cbn [series_empty s_tables forallb andb s_log2 s_tag] in E. injection E as <-.
  apply wr_inv in H. unfold x_sym_extender in H. destruct H as (h1 & H & HC).
  set (z := Series [[]] 0 (tag_default TO) u : series) in *. assert (WZ : WF z) by (apply (set_n_segments_ok KO KS CO z 0); [cbn; lia|exact SU]).
  set (h0 := upd h to z) in *. assert (H0f : h0 from = h from) by (unfold h0; rewrite upd_other; auto). assert (H0t : h0 to = z) by (unfold h0; apply upd_same).
  apply rd_inv in H. apply rd_inv in H. rewrite H0f, H0t in H. pose proof (wf_log2 _ _ _ _ W) as L. unfold get_s_size in H.
  destruct (set_n_segments_ok KO KS CO z (s_log2 (h from)) L SU) as [ES WS]. rewrite ES in H. apply res_inv in H; [|discriminate]. destruct H as [(a & E & H)|(_ & _ & e & E)]; [|discriminate]. injection E as <-. cbn [s_tag s_ss z] in *.
  set (t0 := Series (repeat [] (2 ^ s_log2 (h from))) (s_log2 (h from)) (tag_default TO) u) in *.
  assert (FIN : forall g, frame to from rv h0 g -> clearer TO rv from g h' -> h' to = g to).
  { intros g F CC. destruct (clearer_inv TO to from rv h0 g h' N F CC) as (C1 & C2 & C3). exact C2. }
  apply call_inv in H as [H|(_ & ->)]; [|rewrite (FIN h0 (frame_refl _ _ _ _) HC), H0t; auto].
  apply wr_inv in H. set (h2 := upd h0 to t0) in *.
  assert (F02 : frame to from rv h0 h2). { split; [unfold h2; rewrite upd_other by auto; apply src_refl|intros l N1 N2; unfold h2; rewrite upd_other; auto]. }
  assert (H2t : h2 to = t0) by (unfold h2; apply upd_same).
  apply call_inv in H as [H|(_ & ->)]; [|rewrite (FIN h2 F02 HC), H2t; auto].
  assert (KM : forall e, In e (terms (h from)) -> k_merge KO (fst e) m (s_ss (h from)) <> UB).
  { intros [k c] J. pose proof (kl_merge _ _ KL k (s_ss (h from)) m (wf_valid _ _ _ _ W k c J) IM) as [A B]. cbn zeta in A, B. cbn [fst].
    destruct (kl_fits_dec _ _ KL (insert_zeros m (ks_exps KS (len (s_ss (h from))) k))) as [F|F]; [destruct (A F) as (r & E & _)|destruct (B F) as [E|E]]; congruence. }
  set (stp := fun (s : series) (e : K * C) => k <- k_merge KO (fst e) m (s_ss (h from)) ;; series_add_term KO CO PO true true false true true s k (snd e)) in *.
  assert (MAIN : frame to from rv h2 h1 /\ (exists l1 e l2 s1, terms (h from) = l1 ++ e :: l2 /\ rfold stp l1 t0 = Ok s1 /\ (h1 to = s1 \/ lost s1 (h1 to)))).
  { destruct (Nat.eqb_spec (s_log2 (h from)) 0) as [L0|L0].
    - assert (ST : shaped (h from)) by (apply (wf_shaped KO KS CO); exact W). unfold shaped in ST. rewrite L0 in ST. cbn in ST. unfold terms in KM |- *. destruct (s_tables (h from)) as [|ft [|? ?]] eqn:Ef; try discriminate.
      cbn [rd nth_error] in H. apply res_inv in H; [|discriminate]. destruct H as [(a & E & H)|(_ & _ & e & E)]; [|discriminate]. injection E as <-. cbn [List.concat] in *. rewrite app_nil_r in *.
      apply (loop_inv _ stp (fun s r => r = s \/ lost s r) (fun s => shaped s /\ len (s_tables s) = 1%nat /\ s_ss s = u /\ s_log2 s = 0%nat) to from rv ft) in H as [F R].
      + split; [exact F|]. rewrite H2t in R. destruct R as [(X & _)|(_ & l1 & e & l2 & s1 & R1 & R2 & _ & R3)]; [discriminate|]. exists l1, e, l2, s1. auto.
      + intros [k c] g p g' J (SH & S1 & S2 & S3) HS. apply call_inv in HS as [HS|(-> & ->)]; [|split; [apply frame_refl|right; auto]]. apply res_inv in HS; [|apply KM; exact J]. cbn [fst snd] in *.
        destruct HS as [(k' & EK & HS)|(-> & -> & _)]; [|split; [apply frame_refl|right; auto]]. apply step_inv in HS as [F X]; [|exact N]. split; [exact F|]. unfold stp. cbn [fst snd]. rewrite EK. cbn [bind].
        unfold t0 in X. cbn [s_log2 s_ss] in X. rewrite L0 in X. apply (x_single_inv KO KS CO PO KL true true false true k' c (g to) p (g' to) u 0%nat S1 S2 S3 SH) in X. destruct X as [(-> & X1 & X2 & (M1 & M2 & M3) & X4)|(-> & X)]; [left|right; auto].
        split; [reflexivity|]. split; [exact X1|]. split; [exact X2|]. split; [exact X4|]. split; congruence.
      + rewrite H2t. unfold t0. rewrite L0. split; [reflexivity|]. split; [reflexivity|]. split; reflexivity.
    - apply (loop_inv _ stp (fun s r => r = s \/ lost s r) (fun s => shaped s) to from rv (terms (h from))) in H as [F R].
      + split; [exact F|]. rewrite H2t in R. destruct R as [(X & _)|(_ & l1 & e & l2 & s1 & R1 & R2 & _ & R3)]; [discriminate|]. exists l1, e, l2, s1. auto.
      + intros [k c] g p g' J SH HS. apply call_inv in HS as [HS|(-> & ->)]; [|split; [apply frame_refl|right; auto]]. apply res_inv in HS; [|apply KM; exact J]. cbn [fst snd] in *.
        destruct HS as [(k' & EK & HS)|(-> & -> & _)]; [|split; [apply frame_refl|right; auto]]. apply step_inv in HS as [F X]; [|exact N]. split; [exact F|]. unfold stp. cbn [fst snd]. rewrite EK. cbn [bind].
        apply (x_term_inv KO KS CO PO KL) in X; [|exact SH]. destruct X as [(-> & X1 & X2 & _)|(-> & X)]; auto.
      + rewrite H2t. unfold shaped, t0. cbn [s_tables s_log2]. apply repeat_length. }
  destruct MAIN as [F (l1 & e & l2 & s1 & ET & ER & Q)]. rewrite (FIN h1 (frame_trans _ _ _ _ _ _ F02 F) HC). right.
  assert (W1 : WF s1).
  { destruct (prefix_series (h from) l1 (e :: l2) W ET) as (x1 & WX & TX & LX1 & SX).
    assert (E1 : extend_to KO CO PO TO (tag_default TO) true (fun c : C => c) u x1 m = Ok s1).
    { rewrite (extend_rfold KO KS CO PO TO x1 m u WX), TX, LX1, SX. exact ER. }
    destruct (extend_ok KO KS CO CO PO TO KL CL (fun c : C => c) eq_refl (fun a b => eq_refl) (tag_default TO) true x1 m u WX) as [(a & E' & WA & _)|([E'|E'] & _)]; [rewrite SX; exact IM|rewrite SX; exact EU|exact SU|auto| |congruence|congruence].
    assert (a = s1) as <- by congruence. exact WA. }
  destruct Q as [->|Q]; [exact W1|apply (lost_wf KO KS CO s1 (h1 to) W1 Q)].
Qed.
End XE.
