(** Power series: truncation, sums, products. *)
From Coq Require Import ZArith List Bool String Arith Sorted Permutation Lia Ring Ring_theory.
From Verif Require Import Base KpackModel KpackSpec KpackProofs P_Kpack IntModel IntSpec IntProofs SymModel SymSpec SymProofs P_Sym PMonSpec KeyOps
  SeriesModel SeriesModel2 SeriesSpec SeriesProofs SeriesProofs2 SeriesProofs3 SeriesProofs4 SeriesProofs5 SeriesProofs6 Lin EvalSpec SeriesEval SeriesProofs7 P_Series P_Series2
  PolyModel PolyModel2 PolySpec PolyProofs7 PolyProofs8 PolyProofs9 P_Poly P_Poly2 PSModel PSSpec.
Import ListNotations.
Open Scope Z_scope.
Open Scope res_scope.
Local Notation len := List.length.

Lemma limit_self t d : integral_type t -> has_value t d -> limit_ok t t d.
Proof. intros A B. split; [exact A|]. split; [exact B|]. left. reflexivity. Qed.
Lemma trunc_eqb_iff a b : trunc_eqb a b = true <-> a = b.
Proof.
  destruct a, b; cbn [trunc_eqb]; split; intros H; try discriminate; try reflexivity.
  - apply Z.eqb_eq in H. congruence.
  - injection H as ->. apply Z.eqb_refl.
  - apply andb_true_iff in H as [A B]. apply Z.eqb_eq in A. apply ss_eqb_iff in B. congruence.
  - injection H as -> ->. rewrite Z.eqb_refl. apply ss_eqb_iff. reflexivity.
Qed.
Lemma joint_none a b : joint a b no_truncation <-> a = no_truncation /\ b = no_truncation.
Proof. unfold joint. split; [intros [[-> E]|[[-> E]|[-> E]]]; auto|intros [-> ->]; auto]. Qed.

Section PS.
Context {K C : Type} (KO : key_ops K) (KS : key_sem K) (CO : cf_ops C) (PO : tbl_policy (K * C)) (tD : ity).
Context (KL : key_laws KO KS) (CL : cf_laws CO) (HT : integral_type tD) (DI : degrees_in KS tD).
Notation series := (series K C trunc_t).
Notation WF := (wf KO KS CO).
Notation TO := ps_tag_ops.
Notation coef := (coef KS CO).
Notation exps s k := (ks_exps KS (List.length (s_ss s)) k).
Notation "0c" := (c_zero CO).
Infix "+c" := (c_add CO) (at level 50, left associativity).
Infix "-c" := (c_sub CO) (at level 50, left associativity).
Infix "*c" := (c_mul CO) (at level 40, left associativity).
Add Ring CringPS : (cl_ring _ CL).

Lemma set_tag_wf (s : series) t : WF s -> WF (set_tag s t).
Proof. intros []. constructor; auto. Qed.
Lemma no_terms {A B} (l : list A) : List.concat (map (fun _ => @nil B) l) = [].
Proof. induction l; cbn; auto. Qed.
(** Emptying a series. *)
Lemma clear_ok (x : series) ss t : WF x -> sorted_set ss -> WF (Series (map (fun _ => []) (s_tables x)) (s_log2 x) t ss) /\ @terms K C trunc_t (Series (map (fun _ => []) (s_tables x)) (s_log2 x) t ss) = [].
Proof.
  intros [] SS. set (r := Series _ _ _ _). assert (T : terms r = []) by apply no_terms. assert (N : forall i tb, nth_error (s_tables r) i = Some tb -> tb = []).
  { intros i tb E. apply nth_error_In in E. cbn in E. apply in_map_iff in E as (? & <- & _). reflexivity. }
  split; [|exact T]. constructor.
  - exact SS.
  - exact wf_log2.
  - cbn. rewrite map_length. exact wf_tables.
  - rewrite T. constructor.
  - intros k c I. rewrite T in I. destruct I.
  - intros k c I. rewrite T in I. destruct I.
  - intros i tb k c E I. rewrite (N i tb E) in I. destruct I.
  - intros _ tb I. apply in_map_iff in I as (? & <- & _). cbn. apply Z.div_pos; [vm_compute; discriminate|]. apply Z.pow_pos_nonneg; lia.
Qed.
Lemma coef_tag us (s : series) t ws : coef us (set_tag s t) ws = coef us s ws.
Proof. reflexivity. Qed.

Lemma within_spread t (us ss : symbol_set) v : sorted_set ss -> sorted_set us -> incl ss us -> len v = len ss -> within t us (spread ss us v) = within t ss v.
Proof.
  intros A B I L. apply sorted_set_nodup in A, B. destruct t; cbn [within]; rewrite ?degree_spread; auto.
Qed.

(** Keeping the terms within a truncation. *)
Lemma kept_coef t us (x r : series) ws : covers us x -> WF x -> s_ss r = s_ss x -> terms r = filter (fun e => within t (s_ss x) (exps x (fst e))) (terms x) ->
  coef us r ws = if within t us ws then coef us x ws else 0c.
Proof.
  intros [SU IU] W ES ET. unfold SeriesSpec.coef. rewrite ES, ET. assert (V := wf_valid _ _ _ _ W). assert (SX := wf_ss _ _ _ _ W). clear W ET ES r. 
  induction (terms x) as [|e l IH]; [destruct (within t us ws); reflexivity|]. assert (V' : forall k c, In (k, c) l -> ks_valid KS (len (s_ss x)) k) by (intros k c J; eapply V; right; exact J).
  specialize (IH V'). destruct e as [k c]. assert (VK := V k c (or_introl eq_refl)). assert (L := kl_len _ _ KL _ _ VK). cbn [filter fst].
  rewrite <- (within_spread t us (s_ss x) (exps x k) SX SU IU L). rewrite (psum_cons CO CL _ (k, c)). cbn [fst snd]. destruct (vec_eqb (spread (s_ss x) us (exps x k)) ws) eqn:EV.
  - apply vec_eqb_iff in EV. rewrite EV. destruct (within t us ws); [|exact IH]. rewrite (psum_cons CO CL). cbn [fst snd]. rewrite (proj2 (vec_eqb_iff _ _) EV), IH. reflexivity.
  - cbn [ifP]. destruct (within t us (spread _ _ _)).
    + rewrite (psum_cons CO CL). cbn [fst snd]. rewrite EV. cbn [ifP]. rewrite IH. destruct (within t us ws); ring.
    + rewrite IH. destruct (within t us ws); ring.
Qed.
Lemma filter_all {A} (f : A -> bool) l : (forall a, In a l -> f a = true) -> filter f l = l.
Proof. induction l as [|a l IH]; intros H; [reflexivity|]. cbn [filter]. rewrite (H a (or_introl eq_refl)), IH; [reflexivity|]. intros b I. apply H. right. exact I. Qed.
Lemma respects_coef (x : series) us ws : WF x -> covers us x -> respects KS x -> coef us x ws = if within (s_tag x) us ws then coef us x ws else 0c.
Proof.
  intros W CV R. apply kept_coef; auto. symmetry. apply filter_all. intros [k c] I. apply (R k c I).
Qed.

(** [truncate], for any truncation t. *)
Lemma truncate_ok t (x : series) : WF x -> trunc_ok tD t -> s_tag x = t ->
  (exists r, ps_truncate KO tD x = Ok r /\ WF r /\ s_ss r = s_ss x /\ s_tag r = t /\ s_log2 r = s_log2 x /\
     terms r = filter (fun e => within t (s_ss x) (exps x (fst e))) (terms x) /\ ps_truncate KO tD r = Ok r) \/
  (ps_truncate KO tD x = Throw overflow_error /\ degree_lost KS t x).
Proof.
  intros W TK ET. unfold ps_truncate. rewrite ET. assert (SX := wf_ss _ _ _ _ W). destruct t as [|d|d s].
  - left. exists x. split; [reflexivity|]. split; [exact W|]. split; [reflexivity|]. split; [exact ET|]. split; [reflexivity|]. split; [|rewrite ET; reflexivity]. symmetry. apply filter_all. reflexivity.
  - destruct (truncate_gen KO KS CO KL tD tD d HT (limit_self tD d HT TK) DI all_symbols (fun k => k_degree KO k (s_ss x)) x W) as [(r & ER & WR & SR & TR & LR & _ & ID & FT)|(ER & k & c & J & N)].
    + intros k V. assert (L := kl_len _ _ KL _ _ V). unfold degree_of. rewrite selected_all by auto. apply (kl_degree _ _ KL). exact V.
    + left. exists r. split; [exact ER|]. split; [exact WR|]. split; [exact SR|]. assert (TR' : s_tag r = total_truncation d) by congruence. split; [exact TR'|]. split; [exact LR|]. split; [exact FT|]. rewrite TR'. unfold truncate_degree. rewrite SR. exact ID.
    + right. split; [exact ER|]. split; [discriminate|]. exists k, c. split; [exact J|exact N].
  - destruct TK as [TK SS]. destruct (truncate_gen KO KS CO KL tD tD d HT (limit_self tD d HT TK) DI (one_of s) (fun k => k_p_degree KO k (ss_intersect_idx s (s_ss x)) (s_ss x)) x W) as [(r & ER & WR & SR & TR & LR & _ & ID & FT)|(ER & k & c & J & N)].
    + intros k V. assert (L := kl_len _ _ KL _ _ V). unfold degree_of. rewrite <- select_syms by auto. apply (kl_p_degree _ _ KL); auto. apply (ss_intersect_idx_exact s (s_ss x) SS SX).
    + left. exists r. split; [exact ER|]. split; [exact WR|]. split; [exact SR|]. assert (TR' : s_tag r = partial_truncation d s) by congruence. split; [exact TR'|]. split; [exact LR|]. split; [exact FT|]. rewrite TR'. unfold truncate_p_degree. rewrite SR. exact ID.
    + right. split; [exact ER|]. split; [discriminate|]. exists k, c. split; [exact J|exact N].
Qed.
Lemma kept_respects t (x r : series) : s_ss r = s_ss x -> s_tag r = t -> terms r = filter (fun e => within t (s_ss x) (exps x (fst e))) (terms x) -> respects KS r.
Proof. intros ES ET FT k c I. rewrite FT in I. apply filter_In in I as [_ I]. rewrite ET, ES. exact I. Qed.

(** Sums: any operation on series, within the visit of the truncations. *)
Lemma visit_ok (op : series -> series -> res series) (x y : series) :
  trunc_ok tD (s_tag x) -> trunc_ok tD (s_tag y) -> (forall s, op x y = Ok s -> WF s) ->
  (clash (s_tag x) (s_tag y) -> ps_addsub_visit KO tD op x y = Throw invalid_argument) /\
  (forall t, joint (s_tag x) (s_tag y) t ->
    match op x y with
    | Ok s =>
        (s_tag x = s_tag y /\ ps_addsub_visit KO tD op x y = Ok (set_tag s t)) \/
        (exists r, ps_addsub_visit KO tD op x y = Ok r /\ WF r /\ s_ss r = s_ss s /\ s_tag r = t /\ s_log2 r = s_log2 s /\ terms r = filter (fun e => within t (s_ss s) (exps s (fst e))) (terms s)) \/
        (ps_addsub_visit KO tD op x y = Throw overflow_error /\ degree_lost KS t s)
    | Throw e => ps_addsub_visit KO tD op x y = Throw e
    | UB => ps_addsub_visit KO tD op x y = UB
    end).
Proof.
  intros TX TY WO.
  assert (SAME : forall t, s_tag x = s_tag y -> t = s_tag x -> ps_addsub_visit KO tD op x y = (ret <- op x y ;; Ok (set_tag ret t))).
  { intros t E ->. unfold ps_addsub_visit. rewrite <- E. destruct (s_tag x) as [|d|d s]; [reflexivity| |].
    - rewrite Z.eqb_refl. reflexivity.
    - rewrite Z.eqb_refl, (proj2 (ss_eqb_iff s s) eq_refl). reflexivity. }
  assert (ADOPT : forall t, (s_tag x = no_truncation /\ s_tag y = t) \/ (s_tag y = no_truncation /\ s_tag x = t) -> t <> no_truncation -> ps_addsub_visit KO tD op x y = (ret <- op x y ;; ps_truncate KO tD (set_tag ret t))).
  { intros t [[E F]|[E F]] N; unfold ps_addsub_visit; rewrite E, F; destruct t; try congruence; reflexivity. }
  split.
  - intros (A & B & N). unfold ps_addsub_visit. destruct (s_tag x) as [|d|d s], (s_tag y) as [|e|e u]; try congruence.
    + destruct (Z.eqb_spec d e); [subst; congruence|reflexivity].
    + destruct (Z.eqb_spec d e); [|reflexivity]. cbn [andb]. destruct (ss_eqb s u) eqn:EU; [apply ss_eqb_iff in EU; subst; congruence|reflexivity].
  - intros t J.
    assert (CASES : (s_tag x = s_tag y /\ t = s_tag x) \/ (s_tag x <> s_tag y /\ t <> no_truncation /\ trunc_ok tD t /\ ((s_tag x = no_truncation /\ s_tag y = t) \/ (s_tag y = no_truncation /\ s_tag x = t)))).
    { destruct J as [[E ->]|[[E ->]|[E ->]]]; [left; auto| |].
      - destruct (s_tag y) eqn:EY; [left; rewrite E; auto|right|right]; rewrite E; (split; [discriminate|]); (split; [discriminate|]); auto.
      - destruct (s_tag x) eqn:EX; [left; rewrite E; auto|right|right]; rewrite E; (split; [discriminate|]); (split; [discriminate|]); auto. }
    destruct CASES as [[E T]|(NE & NT & TK & AD)].
    + rewrite (SAME t E T). destruct (op x y) as [s|e|]; cbn [bind]; auto.
    + rewrite (ADOPT t AD NT). destruct (op x y) as [s|e|] eqn:EO; cbn [bind]; auto. right.
      destruct (truncate_ok t (set_tag s t) (set_tag_wf s t (WO s eq_refl)) TK eq_refl) as [(r & ER & WR & SR & TR & LR & FT & _)|[ER D]].
      * left. exists r. split; [exact ER|]. split; [exact WR|]. split; [exact SR|]. split; [exact TR|]. split; [exact LR|]. exact FT.
      * right. split; [exact ER|]. exact D.
Qed.
End PS.
