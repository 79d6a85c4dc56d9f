(** Property C35: the multi-threaded multiplication under every split of the segments into blocks and every interleaving of the workers.
    Vocabulary: PolyConc.v ([cinit], [csteps]: executions; [mt_outcome]: the possible results of the call), PolySpec.v. *)
From Coq Require Import ZArith List Bool String Arith Sorted Permutation Lia.
From Verif Require Import Base SymModel SymSpec PMonSpec KeyOps KpackModel SeriesModel SeriesModel2 SeriesSpec SeriesProofs SeriesProofs2 SeriesProofs5 P_Series P_Series2 CfInst KeyInst
  PolyModel PolySpec PolyProofs2 PolyProofs4 PolyProofs5 PolyProofs6 PolyConc PolyConcProofs P_Poly P_Poly2.
Import ListNotations.
Open Scope Z_scope.
Open Scope res_scope.
Local Notation len := List.length.

(** The pairs of terms multiplied by a list of instructions. *)
Definition products {K C : Type} (l : list (nat * @instr K C)) : list ((K * C) * (K * C)) :=
  List.concat (map (fun e => match snd e with IAcc p => [p] | _ => [] end) l).

Section PC.
Context {K C Tag : Type} (KO : key_ops K) (KS : key_sem K) (CO : cf_ops C) (PO : tbl_policy (K * C)) (TO : tag_ops Tag).
Context (KL : key_laws KO KS) (CL : cf_laws CO).
Notation series := (series K C Tag).
Notation start u := (Series [[]] 0 (tag_default TO) u).

(** What is multiplied: all the pairs of terms, or those whose degrees add up to at most the limit. *)
Definition wanted (sel : string -> bool) (lim : Z) (t : option (trunc K)) (u : symbol_set) (x y : series) : list ((K * C) * (K * C)) :=
  filter (fun p => match t with None => true
     | Some _ => degree_of sel u (ks_exps KS (len u) (fst (fst p))) + degree_of sel u (ks_exps KS (len u) (fst (snd p))) <=? lim end) (list_prod (terms x) (terms y)).

Lemma wanted_keep sel lim t u (x y : series) : filter (keep (D KS sel u) lim t) (list_prod (terms x) (terms y)) = wanted sel lim t u x y.
Proof. unfold wanted. apply filter_ext. intros p. unfold keep, within, D. destruct t; [|reflexivity]. apply eq_iff_eq_true. rewrite !Z.leb_le. lia. Qed.

Lemma mt_of_prelude E t (rv0 x y : series) : poly_mul_mt KO CO PO E t rv0 x y =
  (p <- mt_prelude KO E t rv0 x y ;;
   match p with
   | None => Ok rv0
   | Some (rv, log2, tasks) => tabs <- rmap (fun s => ps <- tasks s ;; tab <- rd (s_tables rv) s ;; segment_task KO CO PO (s_ss rv0) log2 ps tab) (seq 0 (2 ^ log2)) ;; Ok (set_tables rv tabs)
   end).
Proof.
  unfold poly_mul_mt, mt_prelude. destruct (check_overflow E (s_ss rv0) (terms x) (terms y)); cbn [bind]; auto. destruct (match t with None => Ok false | Some t0 => no_mults E t0 (s_ss rv0) (terms x) (terms y) end) as [b| |]; cbn [bind]; auto.
  destruct b; cbn [bind]; auto. destruct (set_n_segments rv0 _); cbn [bind]; auto. destruct (compute_vseg KO _ _); cbn [bind]; auto. destruct (compute_vseg KO _ _); cbn [bind]; auto.
  match goal with |- context [match t with None => Ok (?a, ?b) | _ => _ end] => destruct (match t with None => Ok (a, b) | Some t0 => seg_sorted E t0 (s_ss rv0) a a1 end) as [[? ?]| |] end; cbn [bind]; auto.
  match goal with |- context [match t with None => Ok (?a, ?b) | _ => _ end] => destruct (match t with None => Ok (a, b) | Some t0 => seg_sorted E t0 (s_ss rv0) a a2 end) as [[? ?]| |] end; cbn [bind]; auto.
Qed.

Section X.
Variables (E : mul_env K C Tag) (sel : string -> bool) (lim : Z) (t : option (trunc K)) (u : symbol_set) (x y : series).
Hypothesis EO : env_ok KO KS E.
Hypothesis TE : match t with None => True | Some t => trunc_exact KS sel lim u t end.
Hypothesis Wx : wf KO KS CO x.
Hypothesis Wy : wf KO KS CO y.
Hypothesis Sx : s_ss x = u.
Hypothesis Sy : s_ss y = u.
Hypothesis Nx : terms x <> [].
Hypothesis Ny : terms y <> [].
Notation prelude := (mt_prelude KO E t (start u) x y).

Lemma prel : let p := prelude in
  p = Throw overflow_error \/ p = Ok None \/
  (exists rv log2 tasks tk, p = Ok (Some (rv, log2, tasks)) /\ rv = Series (repeat [] (2 ^ log2)) log2 (tag_default TO) u /\ (log2 <= max_log2_size)%nat /\
     (forall s, (s < 2 ^ log2)%nat -> tasks s = Ok (tk s)) /\
     Permutation (List.concat (map tk (seq 0 (2 ^ log2)))) (wanted sel lim t u x y) /\
     (forall s p, (s < 2 ^ log2)%nat -> In p (tk s) -> pair_ok KS u p /\ seg_of (C := C) KO log2 (pterm KO CO u p) = s)).
Proof.
  assert (SU : sorted_set u) by (rewrite <- Sx; apply (wf_ss _ _ _ _ Wx)).
  assert (V1 : all_valid KS (C := C) u (terms x)). { intros [k c] I. rewrite <- Sx. eapply (wf_valid _ _ _ _ Wx); eauto. }
  assert (V2 : all_valid KS (C := C) u (terms y)). { intros [k c] I. rewrite <- Sy. eapply (wf_valid _ _ _ _ Wy); eauto. }
  destruct (prelude_ok KO KS CO TO E KL EO sel lim t u TE x y SU V1 V2 Nx Ny) as [[H _]|[[H _]|(rv & log2 & tasks & tk & H & H1 & H2 & H3 & _ & H4 & H5)]]; cbv zeta; auto.
  right. right. exists rv, log2, tasks, tk. rewrite wanted_keep in H4. split; [exact H|]. split; [exact H1|]. split; [exact H2|]. split; [exact H3|]. split; [exact H4|]. intros s p Hs Ip. destruct (H5 s p Hs Ip) as (_ & A & B). auto.
Qed.

(** C35. Whatever the split and the interleaving, the result is that of the sequential execution of the tasks (whose exactness is C34). *)
Theorem mt_schedule_independent : forall out, mt_outcome KO CO PO E t (start u) x y out -> out = poly_mul_mt KO CO PO E t (start u) x y.
Proof.
  intros out. unfold mt_outcome. rewrite mt_of_prelude. destruct prel as [->|[->|(rv & log2 & tasks & tk & -> & RV & L & TK & PW & PS)]]; cbn [bind]; auto.
  intros (blocks & st & PB & ST & FIN & ->). unfold outcome. cbn [s_ss] in *.
  assert (ND : NoDup (List.concat blocks)) by (eapply Permutation_NoDup; [symmetry; exact PB|apply seq_NoDup]).
  assert (L0 : len (s_tables rv) = (2 ^ log2)%nat) by (rewrite RV; cbn [s_tables]; apply repeat_length).
  pose proof (conc_result KO CO PO u log2 (s_tables rv) tasks blocks ND (2 ^ log2) st PB L0 ST FIN) as R. cbv zeta in R. destruct (cs_err st) as [f|].
  - destruct R as (s & Hs & Rs). 
    assert (SEG : forall s, (s < 2 ^ log2)%nat -> (exists tab, result KO CO PO u log2 (s_tables rv) tasks s = Ok tab) \/ result KO CO PO u log2 (s_tables rv) tasks s = Throw overflow_error).
    { intros s' Hs'. unfold result. rewrite RV. cbn [s_tables]. rewrite nth_error_repeat by exact Hs'. rewrite run_program, TK by exact Hs'. cbn [bind].
      destruct (task_table KO KS CO PO KL CL u (tk s')) as (tab & Er & _); [intros p Ip; eapply PS; eauto|]. unfold segment_task. rewrite Er. cbn [bind]. destruct (max_table_size log2 <? _); eauto. }
    assert (F : f = FThrow overflow_error). { destruct (SEG s Hs) as [(tab & X)|X]; rewrite X in Rs; destruct f; cbn in Rs; congruence. } subst f. cbn [failed].
    destruct (rmap_spec (fun s => ps <- tasks s ;; tab <- rd (s_tables rv) s ;; segment_task KO CO PO u log2 ps tab) (seq 0 (2 ^ log2))) as [(tabs & _ & F2)|(l1 & s' & l2 & Es & _ & BAD)].
    + exfalso. assert (X : exists tab, (ps <- tasks s ;; tab <- rd (s_tables rv) s ;; segment_task KO CO PO u log2 ps tab) = Ok tab).
      { assert (I : In s (seq 0 (2 ^ log2))) by (apply in_seq; lia). clear -F2 I. induction F2 as [|a b l l' H F IH]; [destruct I|]. destruct I as [->|I]; [eauto|auto]. }
      destruct X as (tab & X). unfold result in Rs. unfold rd in X. destruct (nth_error (s_tables rv) s) as [tab0|] eqn:E0; [|discriminate]. rewrite run_program in Rs. cbn [failed] in Rs.
      destruct (tasks s) as [ps|e|]; cbn [bind] in *; congruence.
    + assert (Hs' : (s' < 2 ^ log2)%nat). { assert (X : In s' (seq 0 (2 ^ log2))) by (rewrite Es; apply in_elt). apply in_seq in X. lia. }
      assert (X : (ps <- tasks s' ;; tab <- rd (s_tables rv) s' ;; segment_task KO CO PO u log2 ps tab) = result KO CO PO u log2 (s_tables rv) tasks s').
      { unfold result, rd. destruct (nth_error (s_tables rv) s') eqn:E0; [rewrite run_program; reflexivity|]. apply nth_error_None in E0. lia. }
      destruct (SEG s' Hs') as [(tab & Y)|Y]; rewrite Y in X.
      * destruct BAD as [(e & B & _)|[B _]]; congruence.
      * destruct BAD as [(e & B & EB)|[B _]]; [|congruence]. rewrite EB. cbn [bind]. congruence.
  - destruct R as [-> _]. reflexivity.
Qed.

(** C35. No data race: in every reachable state, the next accesses of two different workers are to different tables. *)
Theorem mt_race_free : forall rv log2 tasks blocks st, prelude = Ok (Some (rv, log2, tasks)) -> Permutation (List.concat blocks) (seq 0 (2 ^ log2)) ->
  csteps KO CO PO u log2 (cinit (s_tables rv) tasks blocks) st ->
  forall j j' s s' i i' w w', j <> j' -> nth_error (cs_workers st) j = Some ((s, i) :: w) -> nth_error (cs_workers st) j' = Some ((s', i') :: w') -> s <> s'.
Proof.
  intros rv log2 tasks blocks st _ PB ST j j' s s' i i' w w'. apply (no_race KO CO PO u log2 (s_tables rv) tasks blocks); auto. eapply Permutation_NoDup; [symmetry; exact PB|apply seq_NoDup].
Qed.

(** C35. Every product of terms is computed exactly once, in the segment of its key. *)
Lemma products_app (a b : list (nat * @instr K C)) : products (a ++ b) = products a ++ products b.
Proof. unfold products. rewrite map_app, concat_app. reflexivity. Qed.
Lemma products_perm (a b : list (nat * @instr K C)) : Permutation a b -> Permutation (products a) (products b).
Proof. intros P. unfold products. rewrite <- !flat_map_concat_map. apply Permutation_flat_map. exact P. Qed.
Theorem mt_products_once : forall rv log2 tasks blocks st, prelude = Ok (Some (rv, log2, tasks)) -> Permutation (List.concat blocks) (seq 0 (2 ^ log2)) ->
  csteps KO CO PO u log2 (cinit (s_tables rv) tasks blocks) st -> finished st -> cs_err st = None ->
  Permutation (products (cs_done st)) (wanted sel lim t u x y) /\
  forall s a b, In (s, IAcc (a, b)) (cs_done st) -> exists k, k_mul KO (fst a) (fst b) u = Ok k /\ Z.of_nat s = k_hash KO k mod 2 ^ Z.of_nat log2.
Proof.
  intros rv log2 tasks blocks st EP PB ST FIN NE. destruct prel as [H|[H|(rv' & log2' & tasks' & tk & H & RV & L & TK & PW & PS)]]; try congruence.
  rewrite EP in H. injection H as <- <- <-.
  assert (ND : NoDup (List.concat blocks)) by (eapply Permutation_NoDup; [symmetry; exact PB|apply seq_NoDup]).
  assert (L0 : len (s_tables rv) = (2 ^ log2)%nat) by (rewrite RV; cbn [s_tables]; apply repeat_length).
  pose proof (conc_result KO CO PO u log2 (s_tables rv) tasks blocks ND (2 ^ log2) st PB L0 ST FIN) as R. cbv zeta in R. rewrite NE in R. destruct R as [_ PD]. split.
  - etransitivity; [apply products_perm; exact PD|]. etransitivity; [|exact PW]. apply Permutation_refl'.
    assert (X : forall l, (forall s, In s l -> (s < 2 ^ log2)%nat) -> products (List.concat (map (fun s => map (pair s) (program (tasks s))) l)) = List.concat (map tk l)).
    { clear -TK. induction l as [|s l IH]; intros H; [reflexivity|]. cbn [map List.concat]. rewrite products_app, IH by (intros; apply H; right; auto). f_equal. rewrite TK by (apply H; left; reflexivity). cbn [program].
      rewrite map_app, products_app. unfold products at 2. cbn [map snd List.concat app]. rewrite app_nil_r. induction (tk s) as [|p ps IHp]; [reflexivity|]. unfold products in *. cbn [map snd List.concat app]. f_equal. exact IHp. }
    apply X. intros s I. apply in_seq in I. lia.
  - intros s a b I. eapply Permutation_in in I; [|exact PD]. apply in_concat in I as (l & Il & I). apply in_map_iff in Il as (s' & <- & Is). apply in_map_iff in I as (i' & [= <- ->] & I). apply in_seq in Is.
    rewrite TK in I by lia. cbn [program] in I. apply in_app_or in I as [I|[I|[I|[]]]]; try discriminate. apply in_map_iff in I as (p & [= ->] & Ip).
    destruct (PS s' (a, b) ltac:(lia) Ip) as [PK SG]. destruct (pterm_ok KO KS CO KL u (a, b) PK) as [EM _]. cbn [fst snd] in EM. exists (fst (pterm KO CO u (a, b))). split; [exact EM|].
    rewrite <- SG. unfold seg_of. rewrite Z2Nat.id; [reflexivity|]. apply Z.mod_pos_bound. apply Z.pow_pos_nonneg; lia.
Qed.

(** C35. Executions terminate: every step reduces the pending work, or cancels a worker after an exception; and a state without steps to take is finished.  So the call always has a result. *)
Theorem mt_terminates : exists out, mt_outcome KO CO PO E t (start u) x y out.
Proof.
  unfold mt_outcome. destruct prel as [->|[->|(rv & log2 & tasks & tk & -> & _)]]; eauto.
  destruct (can_finish KO CO PO u log2 _ (cinit (s_tables rv) tasks [seq 0 (2 ^ log2)]) (le_n _)) as (st & ST & FIN). eexists. exists [seq 0 (2 ^ log2)], st. split; [cbn [List.concat]; rewrite app_nil_r; reflexivity|]. split; [exact ST|]. split; [exact FIN|reflexivity].
Qed.
Theorem mt_progress : forall log2 st, finished st \/ (exists st', cstep KO CO PO u log2 st st' /\ (work st' < work st)%nat).
Proof. intros log2 st. apply progress. Qed.
End X.
End PC.
Print Assumptions mt_schedule_independent.
Print Assumptions mt_race_free.
Print Assumptions mt_products_once.
Print Assumptions mt_terminates.
Print Assumptions mt_progress.

(** Non-vacuity: the square of the series [ex_x] with two segments, one worker each. *)
Example ex_conc : exists rv tasks st, mt_prelude exK (exE true 1) None (Series [[]] 0 0 ["a"; "b"]%string) ex_x ex_x = Ok (Some (rv, 1%nat, tasks)) /\
  Permutation (List.concat [[1]; [0]]%nat) (seq 0 (2 ^ 1)) /\
  csteps exK Z_cf exP ["a"; "b"]%string 1 (cinit (s_tables rv) tasks [[1]; [0]]%nat) st /\ finished st /\ cs_err st = None /\
  terms ex_x <> [] /\ (work (cinit (s_tables rv) tasks [[1]; [0]]%nat) = 13)%nat.
Proof.
  destruct ex_x_wf as (W & S & _). assert (NE : terms ex_x <> []) by (vm_compute; discriminate).
  destruct (prel exK exS Z_cf Z_tag exK_laws (exE true 1) all_symbols 0 None ["a"; "b"]%string ex_x ex_x (exE_ok true 1) I W W S S NE NE) as [H|[H|(rv & log2 & tasks & tk & H & RV & _)]].
  1, 2: exfalso; assert (X : match mt_prelude exK (exE true 1) None (Series [[]] 0 (tag_default Z_tag) ["a"; "b"]%string) ex_x ex_x with Ok (Some _) => true | _ => false end = true) by (vm_compute; reflexivity); rewrite H in X; discriminate.
  assert (L1 : log2 = 1%nat).
  { assert (X : match mt_prelude exK (exE true 1) None (Series [[]] 0 (tag_default Z_tag) ["a"; "b"]%string) ex_x ex_x with Ok (Some (_, l, _)) => l = 1%nat | _ => False end) by (vm_compute; reflexivity). rewrite H in X. exact X. }
  subst log2. destruct (can_finish exK Z_cf exP ["a"; "b"]%string 1 _ (cinit (s_tables rv) tasks [[1]; [0]]%nat) (le_n _)) as (st & ST & FIN).
  assert (PB : Permutation (List.concat [[1]; [0]]%nat) (seq 0 (2 ^ 1))) by (cbn; apply perm_swap).
  exists rv, tasks, st. split; [exact H|]. split; [exact PB|]. split; [exact ST|]. split; [exact FIN|]. split; [|split; [exact NE|]].
  - assert (O : mt_outcome exK Z_cf exP (exE true 1) None (Series [[]] 0 (tag_default Z_tag) ["a"; "b"]%string) ex_x ex_x (outcome rv st)).
    { unfold mt_outcome. rewrite H. exists [[1]; [0]]%nat, st. auto. }
    apply (mt_schedule_independent exK exS Z_cf exP Z_tag exK_laws Z_cf_laws (exE true 1) all_symbols 0 None ["a"; "b"]%string ex_x ex_x (exE_ok true 1) I W W S S NE NE) in O.
    destruct (cs_err st) as [f|] eqn:EF; [|reflexivity]. exfalso. unfold outcome in O. rewrite EF in O. destruct f; revert O; vm_compute; discriminate.
  - assert (X : match mt_prelude exK (exE true 1) None (Series [[]] 0 (tag_default Z_tag) ["a"; "b"]%string) ex_x ex_x with Ok (Some (r, _, ts)) => work (cinit (s_tables r) ts [[1]; [0]]%nat) = 13%nat | _ => False end) by (vm_compute; reflexivity). rewrite H in X. exact X.
Qed.
