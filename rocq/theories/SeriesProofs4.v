(** Proofs about series.hpp, part 4: equality, scalar multiplication and division, degree, evaluation, trimming, filtering,
    symbol addition, construction and conversion. *)
From Coq Require Import ZArith List Bool String Arith Sorted Permutation Lia Ring Ring_theory.
From Verif Require Import Base IntModel SymModel SymSpec SymProofs P_Sym PMonSpec PMonProofs2 KeyOps SeriesModel SeriesModel2 SeriesSpec SeriesProofs SeriesProofs2 SeriesProofs3.
Import ListNotations.
Open Scope Z_scope.

Lemma vec_eqb_iff a b : vec_eqb a b = true <-> a = b.
Proof. unfold vec_eqb. destruct (list_eq_dec Z.eq_dec a b); split; congruence. Qed.

Section P4.
Context {K C Tag : Type} (KO : key_ops K) (KS : key_sem K) (CO : cf_ops C) (PO : tbl_policy (K * C)) (TO : tag_ops Tag).
Hypothesis KL : key_laws KO KS.
Hypothesis CL : cf_laws CO.
Notation "0c" := (c_zero CO).
Infix "+c" := (c_add CO) (at level 50, left associativity).
Infix "-c" := (c_sub CO) (at level 50, left associativity).
Infix "*c" := (c_mul CO) (at level 40, left associativity).
Notation "-c x" := (c_neg CO x) (at level 35).
Add Ring Cring3 : (cl_ring CO CL).
Notation series := (series K C Tag).

(** ** Equality *)
Local Notation tags_equal := (tags_equal TO).

(** The coefficient of an exponent vector over the symbols of the series itself. *)
Lemma vden_lookup (s : series) k : wf KO KS CO s -> ks_valid KS (len (s_ss s)) k ->
  vden KS CO s (fun v => vec_eqb v (ks_exps KS (len (s_ss s)) k)) = psum CO (fun x => k_eqb KO x k) (terms s).
Proof.
  intros W V. apply psum_ext; auto. intros x c I. apply eq_true_iff_eq. rewrite vec_eqb_iff, (kl_eqb _ _ KL). split; [|congruence].
  apply (kl_inj _ _ KL); auto. apply (wf_valid _ _ _ _ W x c I).
Qed.

Lemma cmp_ok (a b : series) : wf KO KS CO a -> wf KO KS CO b -> s_ss a = s_ss b ->
  exists r, series_cmp_identical_ss KO TO (c_eqb CO) a b = Ok r /\
    (r = true <-> tags_equal (s_tag a) (s_tag b) /\ forall ws, vden KS CO a (fun v => vec_eqb v ws) = vden KS CO b (fun v => vec_eqb v ws)) /\
    (r = true -> Permutation (terms a) (terms b)).
Proof.
  intros WA WB SS. unfold series_cmp_identical_ss. rewrite !size_terms.
  match goal with |- context [if ?x then Ok false else _] => set (td := x) end.
  assert (TD : td = true <-> ~ tags_equal (s_tag a) (s_tag b)).
  { unfold td, tags_equal. destruct (tag_eqb TO) as [e|]; [|split; [discriminate|tauto]]. rewrite negb_true_iff. destruct (e (s_tag a) (s_tag b)); split; congruence. }
  destruct td.
  { exists false. split; [reflexivity|]. split; [|discriminate]. split; [discriminate|]. intros [H _]. elim (proj1 TD eq_refl H). }
  assert (TG : tags_equal (s_tag a) (s_tag b)).
  { unfold tags_equal in *. destruct (tag_eqb TO) as [e|]; [|exact I]. destruct (e (s_tag a) (s_tag b)); [reflexivity|]. destruct TD as [_ TD]. discriminate TD. congruence. }
  pose proof (wf_keys _ _ _ _ WA) as NA. pose proof (wf_keys _ _ _ _ WB) as NB.
  assert (ND : forall l : list (K * C), NoDup (map fst l) -> NoDup l) by (intros l; apply NoDup_map_inv).
  assert (FWD : (forall ws, vden KS CO a (fun v => vec_eqb v ws) = vden KS CO b (fun v => vec_eqb v ws)) -> incl (terms a) (terms b) /\ incl (terms b) (terms a)).
  { intros H. split; intros [k c] I.
    - pose proof (wf_valid _ _ _ _ WA k c I) as Vk. specialize (H (ks_exps KS (len (s_ss a)) k)). rewrite (vden_lookup a k WA Vk) in H. rewrite SS in H, Vk.
      rewrite (vden_lookup b k WB Vk) in H. rewrite (lookup_ok KO KS CO KL CL _ k c NA I) in H.
      destruct (in_dec (k_dec KO KS KL) k (map fst (terms b))) as [J|J].
      + apply in_map_iff in J as ([k' d] & E & J). cbn in E. subst k'. rewrite (lookup_ok KO KS CO KL CL _ k d NB J) in H. subst. exact J.
      + rewrite (lookup_none KO KS CO KL CL _ k J) in H. elim (wf_nonzero _ _ _ _ WA k c I H).
    - pose proof (wf_valid _ _ _ _ WB k c I) as Vk. specialize (H (ks_exps KS (len (s_ss b)) k)). rewrite (vden_lookup b k WB Vk) in H. rewrite <- SS in H, Vk.
      rewrite (vden_lookup a k WA Vk) in H. rewrite (lookup_ok KO KS CO KL CL _ k c NB I) in H.
      destruct (in_dec (k_dec KO KS KL) k (map fst (terms a))) as [J|J].
      + apply in_map_iff in J as ([k' d] & E & J). cbn in E. subst k'. rewrite (lookup_ok KO KS CO KL CL _ k d NA J) in H. subst. exact J.
      + rewrite (lookup_none KO KS CO KL CL _ k J) in H. elim (wf_nonzero _ _ _ _ WB k c I (eq_sym H)). }
  destruct (Nat.eqb_spec (len (terms a)) (len (terms b))) as [EL|NL]; cbn [negb].
  2:{ exists false. split; [reflexivity|]. split; [|discriminate]. split; [discriminate|]. intros [_ H]. exfalso. apply NL. destruct (FWD H) as [I1 I2].
      pose proof (NoDup_incl_length (ND _ NA) I1). pose proof (NoDup_incl_length (ND _ NB) I2). lia. }
  assert (LOOP : forall l, exists r, (fix loop (l : list (K * C)) : res bool :=
       match l with
       | [] => Ok true
       | (k, c) :: l' =>
           it <- series_find KO b k ;;
           if it_eqb it (series_end b) then Ok false
           else e <- it_deref b it ;; if negb (c_eqb CO c (snd e)) then Ok false else loop l'
       end) l = Ok r /\ (r = true <-> incl l (terms b))).
  { induction l as [|[k c] l IH].
    - exists true. split; [reflexivity|]. split; [intros _ x []|reflexivity].
    - destruct (find_ok KO KS CO KL b k WB) as [(it & d & E & NE & ED & I)|[E NI]]; rewrite E; cbn [bind].
      + rewrite NE, ED. cbn [bind snd]. destruct (c_eqb CO c d) eqn:EQ; cbn [negb].
        * apply (cl_eqb _ CL) in EQ. subst d. destruct IH as (r & Er & Hr). exists r. split; [exact Er|]. rewrite Hr. split; [intros H x [<-|J]; auto|].
          intros H x J. apply H. right. exact J.
        * exists false. split; [reflexivity|]. split; [discriminate|]. intros H. exfalso. assert (J : In (k, c) (terms b)) by (apply H; left; reflexivity).
          assert (c = d). { rewrite <- (lookup_ok KO KS CO KL CL _ k c NB J). apply (lookup_ok KO KS CO KL CL _ k d NB I). }
          apply (cl_eqb _ CL) in H0. congruence.
      + assert (it_eqb (series_end b) (series_end b) = true) as ->. { unfold it_eqb, series_end. cbn [fst snd]. rewrite Nat.eqb_refl. reflexivity. }
        exists false. split; [reflexivity|]. split; [discriminate|]. intros H. exfalso. apply NI. apply in_map_iff. exists (k, c). split; auto. apply H. left. reflexivity. }
  destruct (LOOP (terms a)) as (r & Er & Hr). exists r. split; [exact Er|].
  assert (PERM : r = true -> Permutation (terms a) (terms b)).
  { intros H. apply NoDup_Permutation_bis; [apply ND; exact NA|lia|apply Hr; exact H]. }
  split; [|exact PERM]. split.
  - intros H. split; [exact TG|]. intros ws. unfold vden. rewrite (psum_perm CO CL _ _ _ (PERM H)), SS. reflexivity.
  - intros [_ H]. apply Hr. apply FWD. exact H.
Qed.

Lemma coef_nden us (s : series) ws : coef KS CO us s ws = nden KS CO us s (fun v => vec_eqb v ws).
Proof. reflexivity. Qed.

Lemma equal_ok (x y : series) : wf KO KS CO x -> wf KO KS CO y -> Z.of_nat (len (s_ss x) + len (s_ss y)) <= imax size_t ->
  (exists r, series_equal_to KO CO PO TO x y = Ok r /\
    (r = true <-> tags_equal (s_tag x) (s_tag y) /\ forall us ws, coef KS CO us x ws = coef KS CO us y ws)) \/
  ((series_equal_to KO CO PO TO x y = Throw overflow_error \/ series_equal_to KO CO PO TO x y = Throw safe_cast_failure) /\
   ((exists u, sorted_set u /\ (forall z, In z u <-> In z (s_ss x) \/ In z (s_ss y)) /\ (unrep KS u x \/ unrep KS u y)) \/
    full (s_log2 x) (len (terms x)) \/ full (s_log2 y) (len (terms y)))).
Proof.
  intros WX WY SZ. unfold series_equal_to. destruct (ss_eqb (s_ss x) (s_ss y)) eqn:ES.
  - apply ss_eqb_iff in ES. left. destruct (cmp_ok x y WX WY ES) as (r & E & H & PM). exists r. split; [exact E|]. split.
    + intros R. split; [apply H; exact R|]. intros us ws. unfold coef. rewrite ES. apply psum_perm; auto.
    + intros [T HC]. apply H. split; [exact T|]. intros ws. specialize (HC (s_ss x) ws). unfold coef in HC. unfold vden.
      rewrite <- ES in HC. rewrite <- ES.
      transitivity (psum CO (fun k => vec_eqb (spread (s_ss x) (s_ss x) (ks_exps KS (len (s_ss x)) k)) ws) (terms x)); [|rewrite HC].
      * apply psum_ext; auto. intros k c I. rewrite spread_self; auto; [apply sorted_set_nodup, (wf_ss _ _ _ _ WX)|apply (kl_len _ _ KL), (wf_valid _ _ _ _ WX k c I)].
      * apply psum_ext; auto. intros k c I. rewrite spread_self; auto; [apply sorted_set_nodup, (wf_ss _ _ _ _ WX)|]. rewrite ES. apply (kl_len _ _ KL), (wf_valid _ _ _ _ WY k c I).
  - destruct (merge_symbol_sets_exact (s_ss x) (s_ss y) (wf_ss _ _ _ _ WX) (wf_ss _ _ _ _ WY) SZ) as (u & mx & my & EM & SU & IU & IX & IY & MX & MY & _).
    rewrite EM. cbn [bind].
    assert (CX' : incl (s_ss x) u) by (intros z Iz; apply IU; auto).
    assert (CY' : incl (s_ss y) u) by (intros z Iz; apply IU; auto).
    pose proof (extend_ok KO KS CO CO PO TO KL CL (fun c => c) eq_refl (fun _ _ => eq_refl) (s_tag x) true x mx u WX MX IX SU (or_introl eq_refl)) as EX.
    pose proof (extend_ok KO KS CO CO PO TO KL CL (fun c => c) eq_refl (fun _ _ => eq_refl) (s_tag y) true y my u WY MY IY SU (or_introl eq_refl)) as EY.
    assert (FIN : forall a b : series,
      wf KO KS CO a -> wf KO KS CO b -> s_ss a = u -> s_ss b = u -> s_tag a = s_tag x -> s_tag b = s_tag y ->
      (forall Q, vden KS CO a Q = vden KS CO x (fun v => Q (spread (s_ss x) u v))) ->
      (forall Q, vden KS CO b Q = vden KS CO y (fun v => Q (spread (s_ss y) u v))) ->
      exists r, series_cmp_identical_ss KO TO (c_eqb CO) a b = Ok r /\
        (r = true <-> tags_equal (s_tag x) (s_tag y) /\ forall us ws, coef KS CO us x ws = coef KS CO us y ws)).
    { intros a b WA WB SA SB TA TB DA DB. destruct (cmp_ok a b WA WB) as (r & E & H & PM); [congruence|]. exists r. split; [exact E|]. rewrite TA, TB in H. split.
      - intros R. split; [apply H; exact R|]. intros us ws.
        rewrite !coef_nden, <- (vden_spread KS CO u us x _ CX'), <- (vden_spread KS CO u us y _ CY').
        rewrite <- (DA (fun v => vec_eqb (spread u us v) ws)), <- (DB (fun v => vec_eqb (spread u us v) ws)).
        unfold vden. rewrite SA, SB. apply psum_perm; auto.
      - intros [T HC]. apply H. split; [exact T|]. intros ws. rewrite DA, DB. apply (HC u ws). }
    assert (BX : mx = [] -> s_ss x = u) by (intros ->; exact (eq_trans (eq_sym (insert_nil _ 0)) IX)).
    assert (BY : my = [] -> s_ss y = u) by (intros ->; exact (eq_trans (eq_sym (insert_nil _ 0)) IY)).
    assert (IDN : forall z : series, wf KO KS CO z -> s_ss z = u -> forall Q, vden KS CO z Q = vden KS CO z (fun v => Q (spread (s_ss z) u v))).
    { intros z Wz E Q. unfold vden. apply psum_ext; auto. intros k c I. rewrite <- E, spread_self; auto; [apply sorted_set_nodup, (wf_ss _ _ _ _ Wz)|apply (kl_len _ _ KL), (wf_valid _ _ _ _ Wz k c I)]. }
    assert (ERX : forall f, (exists k c, In (k, c) (terms x) /\ ~ ks_fits KS (spread (s_ss x) u (ks_exps KS (len (s_ss x)) k))) \/
      s_log2 x <> 0%nat /\ max_table_size (s_log2 x) <= Z.of_nat (len (terms x)) ->
      (extend_to KO CO PO TO (s_tag x) true (fun c => c) u x mx = Throw overflow_error \/ extend_to KO CO PO TO (s_tag x) true (fun c => c) u x mx = Throw safe_cast_failure) ->
      (bind (extend_to KO CO PO TO (s_tag x) true (fun c => c) u x mx) f = @Throw bool overflow_error \/ bind (extend_to KO CO PO TO (s_tag x) true (fun c => c) u x mx) f = Throw safe_cast_failure) /\
      ((exists u, sorted_set u /\ (forall z, In z u <-> In z (s_ss x) \/ In z (s_ss y)) /\ (unrep KS u x \/ unrep KS u y)) \/
       full (s_log2 x) (len (terms x)) \/ full (s_log2 y) (len (terms y)))).
    { intros f H [E|E]; rewrite E; cbn [bind]; (split; [auto|]); (destruct H as [H|H]; [left; exists u; split; [exact SU|]; split; [exact IU|]; left; exact H|right; left; exact H]). }
    assert (ERY : forall f, (exists k c, In (k, c) (terms y) /\ ~ ks_fits KS (spread (s_ss y) u (ks_exps KS (len (s_ss y)) k))) \/
      s_log2 y <> 0%nat /\ max_table_size (s_log2 y) <= Z.of_nat (len (terms y)) ->
      (extend_to KO CO PO TO (s_tag y) true (fun c => c) u y my = Throw overflow_error \/ extend_to KO CO PO TO (s_tag y) true (fun c => c) u y my = Throw safe_cast_failure) ->
      (bind (extend_to KO CO PO TO (s_tag y) true (fun c => c) u y my) f = @Throw bool overflow_error \/ bind (extend_to KO CO PO TO (s_tag y) true (fun c => c) u y my) f = Throw safe_cast_failure) /\
      ((exists u, sorted_set u /\ (forall z, In z u <-> In z (s_ss x) \/ In z (s_ss y)) /\ (unrep KS u x \/ unrep KS u y)) \/
       full (s_log2 x) (len (terms x)) \/ full (s_log2 y) (len (terms y)))).
    { intros f H [E|E]; rewrite E; cbn [bind]; (split; [auto|]); (destruct H as [H|H]; [left; exists u; split; [exact SU|]; split; [exact IU|]; right; exact H|right; right; exact H]). }
    destruct mx as [|p1 mx'], my as [|p2 my']; cbn [map_empty].
    + exfalso. rewrite (proj2 (ss_eqb_iff _ _)) in ES; [discriminate|]. rewrite BX, BY; auto.
    + destruct EY as [(b & Eb & Wb & Sb & Tb & Lb & Db & Nb)|[E H]]; [|right; apply ERY; assumption].
      rewrite Eb. cbn [bind]. left. apply FIN; auto.
    + destruct EX as [(a & Ea & Wa & Sa & Ta & La & Da & Na)|[E H]]; [|right; apply ERX; assumption].
      rewrite Ea. cbn [bind]. left. apply FIN; auto.
    + destruct EX as [(a & Ea & Wa & Sa & Ta & La & Da & Na)|[E H]]; [|right; apply ERX; assumption].
      rewrite Ea. cbn [bind].
      destruct EY as [(b & Eb & Wb & Sb & Tb & Lb & Db & Nb)|[E H]]; [|right; apply ERY; assumption].
      rewrite Eb. cbn [bind]. left. apply FIN; auto.
Qed.
End P4.
