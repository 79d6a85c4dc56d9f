(** C62: runs with exceptions; what the code does not guarantee. *)
From Coq Require Import ZArith List Bool String Arith Sorted Permutation Lia.
From Verif Require Import Base KpackModel KpackSpec KpackProofs P_Kpack IntModel IntSpec IntProofs P_Int SymModel SymSpec SymProofs P_Sym PMonModel PMonSpec PMonProofs PMonProofs2 P_PMon
  DPMModel DPMSpec DPMProofs DPMProofs2 DPMProofs3 P_DPM KeyOps KeyInst
  SeriesModel SeriesModel2 SeriesSpec SeriesProofs SeriesProofs2 SeriesProofs3 SeriesProofs4 SeriesProofs5 SeriesProofs6 CfInst P_Series P_Series2
  PolyModel PolyModel2 PolySpec PolyProofs8 P_Poly P_Poly2 SerModel SerSpec P_Ser PSModel PSSpec PSProofs P_PS P_PS4 P_Inv ExnModel ExnProofs ExnProofs2 P_Exn ExnModel2 P_Exn2 ExnProofs3.
Import ListNotations.
Open Scope Z_scope.
Open Scope res_scope.
Local Notation len := List.length.

Section F.
Context {K C Tag : Type} (KO : key_ops K) (CO : cf_ops C) (PO : tbl_policy (K * C)).
Notation series := (series K C Tag).
(** The allocation of a new element fails. *)
Lemma alloc_fails sign cz cs k c (s s' : series) : series_add_term KO CO PO sign cz false cs false s k c = Ok s' -> x_add_term KO CO PO sign cz false cs false k c s None s.
Proof.
  intros H. unfold series_add_term, rd in H. cbv zeta in H. unfold x_add_term. apply get_some. cbv zeta. apply call_some. unfold on_table.
  destruct (nth_error (s_tables s) (table_index KO (len (s_tables s)) k)) as [t|] eqn:ET; cbn [bind] in H; [|discriminate]. exists t. split; [|symmetry; apply put_same; exact ET].
  unfold x_add_term_table. apply get_some. unfold series_add_term_table in H. destruct (negb (len (s_tables s) =? 1)%nat && cs && (Z.of_nat (len t) =? max_table_size (s_log2 s))); [discriminate|].
  apply ret_some. cbn [negb]. right. split; [reflexivity|]. right. split; reflexivity.
Qed.
End F.

(** ** An exception while two coefficients are added *)
Definition xn_s : series Z Z trunc_t := psb no_truncation ["a"; "b"]%string 1 [([1; 0], 4); ([0; 1], -1); ([2; 0], 7)].
Lemma xn_wf : wf exK exS Z_cf xn_s /\ s_ss xn_s = ["a"; "b"]%string /\ s_log2 xn_s = 1%nat /\ s_tag xn_s = no_truncation.
Proof. apply psb_wf; [repeat constructor|lia|vm_compute; reflexivity]. Qed.
(** The sum of the coefficients throws and leaves a zero: the table is emptied, the terms of the other table are still there. *)
Example ex_add_term_throws : exists s', x_add_term_pub exK Z_cf exP true (exk [1; 0]) 3 xn_s None s' /\ (0 < series_size s' < series_size xn_s)%nat /\ ks_valid exS 2 (exk [1; 0]).
Proof.
  exists (put_table xn_s (table_index exK 2 (exk [1; 0])) []). split.
  - unfold x_add_term_pub, x_add_term. apply get_some. cbv zeta. apply call_some. unfold on_table. set (i := table_index exK (len (s_tables xn_s)) (exk [1; 0])).
    destruct (nth_error (s_tables xn_s) i) as [t|] eqn:ET; [|vm_compute in ET; discriminate]. exists []. split; [|reflexivity].
    unfold x_add_term_table. apply get_some. assert (ET' : nth_error (s_tables xn_s) i = Some (get [] (match nth_error (s_tables xn_s) i with Some t => Ok t | None => UB end))) by (vm_compute; reflexivity).
    assert (t = get [] (match nth_error (s_tables xn_s) i with Some t => Ok t | None => UB end)) as -> by congruence. clear ET ET'.
    set (t := get [] _). replace (_ && (Z.of_nat (len t) =? max_table_size (s_log2 xn_s))) with false by (vm_compute; reflexivity).
    assert (KC : k_compatible exK (exk [1; 0]) (s_ss xn_s) = Ok true) by (vm_compute; reflexivity). apply (bind_run _ _ _ true t); [apply call_some; unfold mres; rewrite KC; split; reflexivity|]. cbn [negb].
    eapply bind_run; [left; split; [reflexivity|reflexivity]|]. right. split; [reflexivity|]. eexists. split; [|reflexivity].
    right. split; [reflexivity|]. replace (snd (tbl_try_emplace exK exP t (exk [1; 0]) 3)) with false by (vm_compute; reflexivity). cbn [orb].
    apply call_some. right. split; [reflexivity|]. exists 0. reflexivity.
  - split; [vm_compute; split; repeat constructor|]. exists [1; 0]. apply representsb_ok. vm_compute. reflexivity.
Qed.

(** ** (a) x += y, where y has more symbols: x is replaced with its extension, which has no truncation; if the sum then throws, e.g. because of a failed allocation,
    the truncation of x is lost (power_series.hpp:1186-1194 restores it only if there is no exception). *)
Definition xt_y := psb (total_truncation 2) ["a"; "b"; "c"]%string 0 [([0; 0; 1], 1)].
Lemma xt_y_wf : wf exK exS Z_cf xt_y /\ s_ss xt_y = ["a"; "b"; "c"]%string /\ s_log2 xt_y = 0%nat /\ s_tag xt_y = total_truncation 2.
Proof. apply psb_wf; [repeat constructor|lia|vm_compute; reflexivity]. Qed.
Definition xt_h : @store Z Z trunc_t := fun l => match l with LX => ps_x | _ => xt_y end.
Definition xt_merged := merge_symbol_sets ["a"; "b"]%string ["a"; "b"; "c"]%string.
Definition xt_u := ["a"; "b"; "c"]%string.
Definition xt_m : symbol_idx_map symbol_set := snd (fst (get ([], [], []) xt_merged)).
Definition xt_a : series Z Z trunc_t := get (series_default ps_tag_ops) (extend_to exK Z_cf exP ps_tag_ops no_truncation true (fun c => c) xt_u ps_x xt_m).
Lemma xt_a_ok : extend_to exK Z_cf exP ps_tag_ops no_truncation true (fun c => c) xt_u ps_x xt_m = Ok xt_a.
Proof. vm_compute. reflexivity. Qed.
Lemma exs_within_x : respects exS ps_x.
Proof.
  intros k c J. assert (X : forallb (fun e => within (s_tag ps_x) (s_ss ps_x) (ks_exps exS (len (s_ss ps_x)) (fst e))) (terms ps_x) = true) by (vm_compute; reflexivity).
  rewrite forallb_forall in X. exact (X (k, c) J).
Qed.
Lemma exs_within_y : respects exS xt_y.
Proof.
  intros k c J. assert (X : forallb (fun e => within (s_tag xt_y) (s_ss xt_y) (ks_exps exS (len (s_ss xt_y)) (fst e))) (terms xt_y) = true) by (vm_compute; reflexivity).
  rewrite forallb_forall in X. exact (X (k, c) J).
Qed.
Theorem ps_keeps_truncation_refuted : exists (h h' : @store Z Z trunc_t), wf exK exS Z_cf (h LX) /\ wf exK exS Z_cf (h LY) /\ s_tag (h LX) = total_truncation 2 /\ s_tag (h LY) = total_truncation 2 /\
  respects exS (h LX) /\ respects exS (h LY) /\ x_ps_in_place_addsub exK Z_cf exP tD true LY false false h None h' /\ s_tag (h' LX) = no_truncation.
Proof.
  pose proof ps_x_wf as (WX & SX & _ & TX). pose proof xt_y_wf as (WY & SY & _ & TY).
  destruct (extend_run exK exS Z_cf exP ps_tag_ops LA LX false xt_u xt_m xt_h xt_a ltac:(discriminate) WX xt_a_ok) as (h1 & A1 & B1).
  pose proof A1 as A1'. apply (extend_inv exK exS Z_cf exP ps_tag_ops exK_laws) in A1' as (F1 & _); [|discriminate|exact WX|].
  2:{ change (xt_h LX) with ps_x. rewrite SX. pose proof (merge_symbol_sets_exact ["a"; "b"]%string xt_u ltac:(repeat constructor) ltac:(repeat constructor) ltac:(vm_compute; discriminate)) as (u & mx & my & EM & _ & _ & _ & _ & MX & _).
      assert (E : merge_symbol_sets ["a"; "b"]%string xt_u = Ok (xt_u, xt_m, [])) by (vm_compute; reflexivity). rewrite EM in E. injection E as -> -> ->. exact MX. }
  pose proof (F1 LY ltac:(discriminate) ltac:(discriminate)) as Y1. set (h2 := upd (upd h1 LX (h1 LA)) LA (moved_from (h1 LA))).
  exists xt_h, (upd h2 LX xt_a). split; [exact WX|]. split; [exact WY|]. split; [exact TX|]. split; [exact TY|]. split; [exact exs_within_x|]. split; [exact exs_within_y|]. split; [|rewrite upd_same; vm_compute; reflexivity].
  unfold x_ps_in_place_addsub. apply rd_run, rd_run. change (xt_h LX) with ps_x. change (xt_h LY) with xt_y. rewrite TX, TY. rewrite Z.eqb_refl. cbn [negb].
  right. split; [reflexivity|]. unfold x_in_place_addsub. apply rd_run, rd_run. change (xt_h LX) with ps_x. change (xt_h LY) with xt_y. rewrite SX, SY.
  replace (ss_eqb ["a"; "b"]%string ["a"; "b"; "c"]%string) with false by (vm_compute; reflexivity). apply call_some. apply (res_some _ _ _ _ _ (xt_u, xt_m, [])); [vm_compute; reflexivity|].
  replace (map_empty xt_m) with false by (vm_compute; reflexivity). cbn [map_empty]. eapply bind_run; [exact A1|]. apply mv_run. fold h2.
  exists (upd h2 LX xt_a). split; [|reflexivity]. unfold x_merge_loop. apply rd_run, rd_run. assert (X2 : h2 LX = xt_a) by (rewrite <- B1; reflexivity). assert (Y2 : h2 LY = xt_y) by (change (h2 LY) with (h1 LY); rewrite Y1; reflexivity). rewrite X2, Y2.
  replace (1 <? len (s_tables xt_a))%nat with true by (vm_compute; reflexivity).
  destruct (terms xt_y) as [|e l] eqn:ET; [vm_compute in ET; discriminate|]. cbn [mfor]. right. split; [reflexivity|]. exists (upd h2 LX xt_a). split; [|reflexivity]. exists xt_a. split; [|reflexivity]. rewrite X2.
  assert (EE : e = nth 0 (terms xt_y) e) by (rewrite ET; reflexivity). assert (EE' : nth 0 (terms xt_y) e = (exk [0; 0; 1], 1)) by (vm_compute; reflexivity). rewrite EE' in EE. subst e. cbn [fst snd].
  apply (alloc_fails exK Z_cf exP true true true (exk [0; 0; 1]) 1 xt_a (get xt_a (series_add_term exK Z_cf exP true true false true false xt_a (exk [0; 0; 1]) 1))). vm_compute. reflexivity.
Qed.

(** ** (b) x += y, where only y is truncated: x gets the truncation of y and is truncated afterwards (power_series.hpp:1203-1208).  If the degree of a term of x
    is not a value of its type, x is left with a truncation which its terms exceed (set_truncation, on the other hand, clears the series in this case). *)
Definition xb_v := let t := 2 ^ 61 - 1 in [t; t; t; t; t; t].
Definition xb_ss := ["a"; "b"; "c"; "d"; "e"; "f"]%string.
Definition xb_x : series dpm Z trunc_t := get (series_default ps_tag_ops) (build exD exDP no_truncation xb_ss 0 [(dcode kd_int64 1 xb_v, 1)]).
Definition xb_y : series dpm Z trunc_t := get (series_default ps_tag_ops) (build exD exDP (total_truncation 5) xb_ss 0 []).
Lemma xb_x_wf : wf exD exDS Z_cf xb_x /\ s_ss xb_x = xb_ss /\ s_log2 xb_x = 0%nat /\ s_tag xb_x = no_truncation.
Proof.
  refine (build_wf exD exDS exDP no_truncation xb_ss 0 [(dcode kd_int64 1 xb_v, 1)] xb_x exD_laws _ _ _ _); [repeat constructor|lia| |vm_compute; reflexivity].
  intros k c [[= <- <-]|[]]. exists xb_v. apply drepresentsb_ok. vm_compute. reflexivity.
Qed.
Lemma xb_y_wf : wf exD exDS Z_cf xb_y /\ s_ss xb_y = xb_ss /\ s_log2 xb_y = 0%nat /\ s_tag xb_y = total_truncation 5.
Proof. refine (build_wf exD exDS exDP (total_truncation 5) xb_ss 0 [] xb_y exD_laws _ _ _ _); [repeat constructor|lia|intros k c []|vm_compute; reflexivity]. Qed.
Definition xb_h : @store dpm Z trunc_t := fun l => match l with LX => xb_x | _ => xb_y end.
Theorem ps_respects_truncation_refuted : exists (h h' : @store dpm Z trunc_t), wf exD exDS Z_cf (h LX) /\ wf exD exDS Z_cf (h LY) /\ respects exDS (h LX) /\ respects exDS (h LY) /\
  x_ps_in_place_addsub exD Z_cf exDP tD true LY false false h None h' /\ s_tag (h' LX) = total_truncation 5 /\ ~ respects exDS (h' LX).
Proof.
  pose proof xb_x_wf as (WX & SX & _ & TX). pose proof xb_y_wf as (WY & SY & _ & TY).
  destruct (in_place_runs exD exDS Z_cf exDP ps_tag_ops exD_laws Z_cf_laws true LY false false xb_h xb_x) as (h1 & A1 & B1); [auto|exact WX|exact WY|change (xb_h LX) with xb_x; change (xb_h LY) with xb_y; rewrite SX, SY; vm_compute; discriminate|vm_compute; reflexivity|].
  set (s2 := set_tag xb_x (total_truncation 5)). exists xb_h, (upd (upd h1 LX s2) LX s2). split; [exact WX|]. split; [exact WY|]. split; [intros k c _; change (xb_h LX) with xb_x; rewrite TX; reflexivity|]. split; [intros k c J; vm_compute in J; destruct J|]. rewrite upd_same. split; [|split; [reflexivity|]].
  - unfold x_ps_in_place_addsub. apply rd_run, rd_run. change (xb_h LX) with xb_x. change (xb_h LY) with xb_y. rewrite TX, TY. eapply bind_run; [exact A1|].
    eapply bind_run; [exists s2; split; [apply call_some; rewrite B1; split; reflexivity|reflexivity]|]. exists s2. rewrite upd_same. split; [|reflexivity].
    unfold x_ps_truncate. apply get_some. cbn [s_tag s2 set_tag]. unfold x_truncate_degree. apply get_some. unfold x_filter. apply get_some. replace (len (s_tables s2)) with 1%nat by (vm_compute; reflexivity).
    cbn [seq mfor]. right. split; [reflexivity|]. unfold on_table. destruct (nth_error (s_tables s2) 0) as [t|] eqn:ET; [|exact I]. exists t. split; [|symmetry; apply put_same; exact ET].
    assert (T0 : exists e, s_tables s2 = [[e]] /\ kept_degree exD tD 5 (s_ss s2) e = Throw overflow_error). { exists (hd (dcode kd_int64 1 xb_v, 1) (terms s2)). split; vm_compute; reflexivity. }
    destruct T0 as (e & T0 & KD). rewrite T0 in ET. injection ET as <-. apply get_some. cbn [mfor]. right. split; [reflexivity|]. apply call_some. right. split; [reflexivity|]. rewrite KD. split; reflexivity.
  - intros R. assert (X : forallb (fun e => within (s_tag s2) (s_ss s2) (ks_exps exDS (len (s_ss s2)) (fst e))) (terms s2) = false) by (vm_compute; reflexivity).
    assert (Y : forallb (fun e => within (s_tag s2) (s_ss s2) (ks_exps exDS (len (s_ss s2)) (fst e))) (terms s2) = true) by (apply forallb_forall; intros [k c] J; exact (R k c J)). congruence.
Qed.

(** ** (c) negate: if the negation of a coefficient throws and leaves a zero, the series has a zero term (series.hpp:1847-1861 has no catch block). *)
Theorem negate_invariants_refuted : exists s s' : series Z Z trunc_t, wf exK exS Z_cf s /\ x_negate exK Z_cf s None s' /\ ~ wf exK exS Z_cf s'.
Proof.
  pose proof xt_y_wf as (W & _). destruct (s_tables xt_y) as [|t l] eqn:ET; [vm_compute in ET; discriminate|]. destruct t as [|[k c] [|? ?]]; [vm_compute in ET; discriminate| |vm_compute in ET; discriminate].
  exists xt_y, (put_table xt_y 0 [(k, 0)]). split; [exact W|]. split.
  - unfold x_negate. apply get_some. rewrite ET. cbn [List.length seq mfor]. right. split; [reflexivity|]. unfold on_table. rewrite ET. cbn [nth_error]. exists [(k, 0)]. split; [|reflexivity].
    apply get_some. cbn [mfor]. right. split; [reflexivity|]. right. split; [reflexivity|]. exists 0. assert (EK : k_eqb exK k k = true) by (apply (kl_eqb _ _ exK_laws); reflexivity). unfold tbl_update. cbn [fst map]. rewrite EK. reflexivity.
  - intros W'. apply (wf_nonzero _ _ _ _ W' k 0); [|reflexivity]. unfold terms, put_table, set_tables. cbn [s_tables]. rewrite ET. cbn. left. reflexivity.
Qed.
Print Assumptions add_term_exceptions.
Print Assumptions in_place_scalar_exceptions.
Print Assumptions in_place_exceptions.
Print Assumptions addsub_exceptions.
Print Assumptions filter_exceptions.
Print Assumptions negate_exceptions.
Print Assumptions scalar_mul_exceptions.
Print Assumptions in_place_scalar_mul_exceptions.
Print Assumptions set_truncation_exceptions.
Print Assumptions set_truncation_p_exceptions.
Print Assumptions ps_in_place_exceptions.
Print Assumptions ps_in_place_scalar_exceptions.
Print Assumptions ps_addsub_exceptions.
Print Assumptions in_place_runs.
Print Assumptions addsub_runs.
Print Assumptions filter_runs.
Print Assumptions scalar_mul_runs.
Print Assumptions ps_keeps_truncation_refuted.
Print Assumptions ps_respects_truncation_refuted.
Print Assumptions negate_invariants_refuted.
