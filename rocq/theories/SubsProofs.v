(** Substitution in polynomials. *)
From Coq Require Import ZArith List Bool String Arith Sorted Permutation Lia Ring Ring_theory.
From Verif Require Import Base IntModel SymModel SymSpec SymProofs P_Sym PMonSpec KeyOps
  SeriesModel SeriesModel2 SeriesSpec SeriesProofs SeriesProofs2 SeriesProofs3 SeriesProofs4 SeriesProofs5 SeriesProofs6 Lin EvalSpec SeriesEval SeriesProofs7 P_Series P_Series2
  PolyModel PolyModel2 PolySpec PolyProofs7 PolyProofs8 PolyProofs9 P_Poly DiffProofs SubsSpec.
Import ListNotations.
Open Scope Z_scope.
Open Scope res_scope.
Local Notation len := List.length.

Lemma nodup_map_inj {A B} (f : A -> B) l : NoDup l -> (forall a b, In a l -> In b l -> f a = f b -> a = b) -> NoDup (map f l).
Proof.
  induction 1 as [|a l NI ND IH]; intros H; cbn; constructor.
  - intros J. apply in_map_iff in J as (b & E & J). assert (b = a) as -> by (apply H; cbn; auto). contradiction.
  - apply IH. intros. apply H; cbn; auto.
Qed.
Lemma assoc_iff {U} (m : symbol_map U) z v : NoDup (map fst m) -> (assoc m z = Some v <-> In (z, v) m).
Proof.
  intros ND. unfold assoc. induction m as [|[n x] m IH]; cbn; [split; [discriminate|tauto]|].
  inversion ND; subst. destruct (String.eqb_spec n z).
  - subst. cbn. split; [intros [= ->]; auto|]. intros [[= <-]|I]; auto. exfalso. apply H1. apply in_map_iff. exists (z, v); auto.
  - rewrite (IH H2). split; [tauto|]. intros [[= -> _]|I]; [congruence|exact I].
Qed.

(** The positions found by the intersection. *)
Section Idx.
Context {U : Type} (sm : symbol_map U) (ss : symbol_set) (Hm : sorted_set (map fst sm)) (Hs : sorted_set ss).
Let si := sm_intersect_idx sm ss.
Lemma idx_sorted : StronglySorted lt (map fst si). Proof. apply (sm_intersect_idx_exact U sm ss Hm Hs). Qed.
Lemma idx_iff i v : In (i, v) si <-> exists n, nth_error ss i = Some n /\ assoc sm n = Some v.
Proof.
  unfold si. rewrite (proj2 (sm_intersect_idx_exact U sm ss Hm Hs) i v). split; intros (n & E & I); exists n; split; auto; apply (assoc_iff sm n v); auto; apply sorted_set_nodup; auto.
Qed.
Lemma idx_bound y : In y (map fst si) -> (y < len ss)%nat.
Proof. intros I. apply in_map_iff in I as ([i v] & <- & I). apply idx_iff in I as (n & E & _). cbn. apply nth_error_Some. congruence. Qed.
Lemma idx_zero vs : len vs = len ss -> zero_at (map fst si) vs = keep sm ss vs.
Proof.
  intros L. apply nth_error_ext. intros i. unfold zero_at, keep. rewrite !nth_error_map. destruct (nth_error ss i) as [z|] eqn:E.
  - assert (Li : (i < len ss)%nat) by (apply nth_error_Some; congruence). destruct (nth_error vs i) as [e|] eqn:Ee; [|apply nth_error_None in Ee; lia].
    assert (EC : nth_error (combine (seq 0 (len vs)) vs) i = Some (i, e)).
    { assert (G : forall (b : list Z) s i e, nth_error b i = Some e -> nth_error (combine (seq s (len b)) b) i = Some ((s + i)%nat, e)).
      { clear. induction b as [|x b IH]; intros s [|i] e E; cbn in *; try discriminate; [inversion E; f_equal; f_equal; lia|]. rewrite (IH (S s) i e E). f_equal. f_equal. lia. }
      apply (G vs 0%nat i e Ee). }
    rewrite EC. cbn [option_map fst snd]. f_equal. assert (EX := expo_nth ss vs i z e (sorted_set_nodup _ Hs) E Ee). rewrite EX.
    destruct (mem i (map fst si)) eqn:M.
    + assert (J : In i (map fst si)). { revert M. unfold mem. intros M. apply existsb_exists in M as (j & J & EJ). apply Nat.eqb_eq in EJ. congruence. }
      apply in_map_iff in J as ([j v] & EJ & J). cbn in EJ. subst j. apply idx_iff in J as (n & En & A). assert (n = z) as -> by congruence. rewrite A. reflexivity.
    + destruct (assoc sm z) as [v|] eqn:A; [|reflexivity]. exfalso. assert (J : In (i, v) si) by (apply idx_iff; eauto). apply (in_map fst) in J. cbn in J.
      enough (mem i (map fst si) = true) by congruence. apply existsb_exists. exists i. split; [exact J|apply Nat.eqb_refl].
  - cbn. apply nth_error_None in E. assert (nth_error (combine (seq 0 (len vs)) vs) i = None) as ->; [|reflexivity]. apply nth_error_None. rewrite combine_length, seq_length. lia.
Qed.
Context {V : Type} (vzero vone : V) (va vm vs : V -> V -> V) (vo : V -> V) (VR : ring_theory vzero vone va vm vs vo (@eq V)) (pw : U -> Z -> V).
Add Ring VringI : VR.
Lemma idx_mono es : len es = len ss -> fold_left vm (map (fun a => pw (snd a) (nth (fst a) es 0)) si) vone = mono vone vm pw sm ss es ss.
Proof.
  intros L. assert (PL : forall l acc, fold_left vm l acc = vm acc (fold_right vm vone l)) by (induction l as [|v l IH]; intros acc; cbn; [ring|rewrite IH; ring]).
  assert (PP : forall a b, Permutation a b -> fold_right vm vone a = fold_right vm vone b) by (induction 1; cbn; try congruence; ring).
  rewrite PL. transitivity (fold_right vm vone (map (factor vone pw sm ss es) (map (fun a => nth (fst a) ss ""%string) si))).
  - transitivity (fold_right vm vone (map (fun a => pw (snd a) (nth (fst a) es 0)) si)); [ring|]. f_equal. rewrite map_map. apply map_ext_in. intros [i v] I. apply idx_iff in I as (n & En & A). cbn [fst snd].
    rewrite (nth_error_nth ss i ""%string En). unfold factor. rewrite A. f_equal. symmetry. assert (i < len ss)%nat by (apply nth_error_Some; congruence).
    apply (expo_nth ss es i n); auto; [apply sorted_set_nodup; auto|]. apply nth_error_nth'. lia.
  - set (f := fun z => match assoc sm z with Some _ => true | None => false end).
    transitivity (fold_right vm vone (map (factor vone pw sm ss es) (filter f ss))).
    + apply PP, Permutation_map, NoDup_Permutation.
      * apply nodup_map_inj; [|].
        -- apply (NoDup_map_inv fst). assert (S := idx_sorted). clear -S. induction S as [|a l S IH F]; constructor; auto. intros I. rewrite Forall_forall in F. apply F in I. lia.
        -- intros [i v] [j w] I J. cbn [fst]. apply idx_iff in I as (n & En & A). apply idx_iff in J as (n' & En' & A'). rewrite (nth_error_nth _ _ _ En), (nth_error_nth _ _ _ En'). intros <-.
           assert (i = j) by (apply (proj1 (NoDup_nth_error ss) (sorted_set_nodup _ Hs)); [apply nth_error_Some; congruence|congruence]). congruence.
      * apply NoDup_filter, sorted_set_nodup; auto.
      * intros z. rewrite in_map_iff, filter_In. split.
        -- intros ([i v] & <- & I). apply idx_iff in I as (n & En & A). cbn [fst]. rewrite (nth_error_nth _ _ _ En). unfold f. rewrite A. split; [eapply nth_error_In; eauto|reflexivity].
        -- intros [I E]. unfold f in E. destruct (assoc sm z) as [v|] eqn:A; [|discriminate]. apply In_nth_error in I as (i & Ei). exists (i, v). split; [apply (nth_error_nth _ _ _ Ei)|]. apply idx_iff. eauto.
    + unfold mono. assert (G : forall l, fold_right vm vone (map (factor vone pw sm ss es) (filter f l)) = fold_right vm vone (map (factor vone pw sm ss es) l)).
      { induction l as [|z l IH]; [reflexivity|]. cbn [filter map fold_right]. unfold f at 1. destruct (assoc sm z) eqn:A; cbn [map fold_right]; rewrite IH; [reflexivity|]. unfold factor at 2. rewrite A. ring. }
      apply G.
Qed.
End Idx.

Section Subs.
Context {K C Tag : Type} (KO : key_ops K) (KS : key_sem K) (CO : cf_ops C) (PO : tbl_policy (K * C)) (TO : tag_ops Tag).
Context (KL : key_laws KO KS) (CL : cf_laws CO).
Notation series := (series K C Tag).
Notation WF := (wf KO KS CO).
Notation exps s k := (ks_exps KS (List.length (s_ss s)) k).
Infix "+c" := (c_add CO) (at level 50, left associativity).
Infix "*c" := (c_mul CO) (at level 40, left associativity).
Add Ring CringS : (cl_ring _ CL).
Notation vterm := (list Z * C)%type.

Definition blank (x : series) : series := Series [[]] 0 (s_tag x) (s_ss x).
Lemma blank_wf x : WF x -> WF (blank x).
Proof. intros W. destruct (set_n_segments_ok KO KS CO (blank x) 0) as [_ X]; [cbn; lia|apply (wf_ss _ _ _ _ W)|exact X]. Qed.
Lemma tmp_ok (x : series) k : WF x -> ks_valid KS (len (s_ss x)) k ->
  exists t, add_term KO CO PO true (clear_terms (blank x)) k (c_one CO) = Ok t /\ WF t /\ s_ss t = s_ss x /\ s_log2 t = 0%nat /\ (forall us, same CO (vt KS us t) [(spread (s_ss x) us (exps x k), c_one CO)]).
Proof.
  intros W V. change (clear_terms (blank x)) with (blank x). pose proof (blank_wf x W) as WB.
  destruct (add_ok KO KS CO PO KL CL (blank x) (blank x) k (c_one CO) WB WB) as [(t & E & Wt & (M1 & M2 & M3) & S & _)|(_ & [F _])].
  - split; [reflexivity|split; reflexivity].
  - exact V.
  - exists t. split; [exact E|]. split; [exact Wt|]. split; [exact M1|]. split; [exact M3|]. intros us. eapply same_trans; [apply S|]. apply same_refl.
  - elim F. reflexivity.
Qed.
Lemma default_wf : WF (series_default TO : series).
Proof. destruct (set_n_segments_ok KO KS CO (series_default TO) 0) as [_ X]; [cbn; lia|constructor|exact X]. Qed.
Lemma scalar_log2 (a : series) b : s_log2 a = 0%nat -> s_log2 (series_scalar_mul KO CO a b) = 0%nat.
Proof. intros L. unfold series_scalar_mul. destruct (_ || _); [reflexivity|exact L]. Qed.
Lemma scalar_vt (a : series) b us : WF a -> same CO (vt KS us (series_scalar_mul KO CO a b)) (map (fun e => (fst e, snd e *c b)) (vt KS us a)).
Proof.
  intros W Q. destruct (scalar_mul_ok KO KS CO KL CL a b W) as (_ & E & _ & P & _). rewrite vt_psum. unfold nden, vden. rewrite E, P.
  rewrite (psum_map CO CL Q (fun v => v) (fun c => c *c b) CO (vt KS us a)) by (intros; ring). f_equal. symmetry. apply (vt_psum KS CO us a Q).
Qed.

(** ** Scalars *)
Context {U : Type} (vpow : U -> Z -> res C) (pw : U -> Z -> C).
Notation weight sm x k := (mono (c_one CO) (c_mul CO) pw sm (s_ss x) (exps x k) (s_ss x)).
Definition sterm (x : series) (sm : symbol_map U) us (e : K * C) : vterm := (spread (s_ss x) us (keep sm (s_ss x) (exps x (fst e))), weight sm x (fst e) *c snd e).

Lemma subs_scalar_ok (x : series) (sm : symbol_map U) : WF x -> sorted_set (map fst sm) -> powers_exist KS vpow pw sm x -> Z.of_nat (len (s_ss x) + len (s_ss x)) <= imax size_t ->
  exists r, subs_scalar KO CO PO TO vpow x sm = Ok r /\ WF r /\ (s_ss r = s_ss x \/ (terms x = [] /\ r = series_default TO)) /\
    forall us, covers us x -> same CO (vt KS us r) (map (sterm x sm us) (terms x)).
Proof.
  intros W Hm PE SZ. assert (Hs := wf_ss _ _ _ _ W). unfold subs_scalar, poly_subs. unfold set_symbol_set. change (series_empty (series_default TO)) with true. cbn iota. cbn [bind].
  change (set_tag _ (s_tag x)) with (blank x). cbv zeta.
  match goal with |- context [rfold ?f _ _] => set (step := f) end.
  destruct (rfold_inv step (fun done r => WF r /\ s_log2 r = 0%nat /\ (s_ss r = s_ss x \/ (done = [] /\ r = series_default TO)) /\ forall us, covers us x -> same CO (vt KS us r) (map (sterm x sm us) done)) (fun _ => False))
    with (l := terms x) (pre := @nil (K * C)) (b := series_default TO : series) as [(r & E & (Wr & _ & SS & SM))|[]].
  - auto.
  - split; [apply default_wf|]. split; [reflexivity|]. split; [right; auto|]. intros us _. apply same_refl.
  - cbn [app]. intros p r [k c] q EQ (Wr & L0 & SS & SM). left. assert (I : In (k, c) (terms x)) by (rewrite EQ; apply in_or_app; right; left; reflexivity).
    pose proof (wf_valid _ _ _ _ W k c I) as V. assert (LE : len (exps x k) = len (s_ss x)) by (apply (kl_len _ _ KL); exact V).
    unfold step. cbn [fst snd].
    destruct (kl_subs _ _ KL C U (c_one CO) (c_mul CO) vpow pw k (s_ss x) (sm_intersect_idx sm (s_ss x)) V (idx_sorted sm (s_ss x) Hm Hs) (idx_bound sm (s_ss x) Hm Hs)) as (k' & EK & V' & X').
    { intros i u J. apply (idx_iff sm (s_ss x) Hm Hs) in J as (n & En & A). assert (EX : expo (s_ss x) (exps x k) n = nth i (exps x k) 0).
      { eapply expo_nth; eauto; [apply sorted_set_nodup; auto|]. apply nth_error_nth'. rewrite LE. apply nth_error_Some. congruence. }
      rewrite <- EX. apply (PE n u k c); [apply assoc_iff; auto; apply sorted_set_nodup; auto|exact I|eapply nth_error_In; eauto]. }
    rewrite EK. cbn [bind].
    rewrite (idx_mono sm (s_ss x) Hm Hs (c_zero CO) (c_one CO) (c_add CO) (c_mul CO) (c_sub CO) (c_neg CO) (cl_ring _ CL) pw (exps x k) LE) in *.
    rewrite (idx_zero sm (s_ss x) Hm Hs _ LE) in X'.
    destruct (tmp_ok x k' W V') as (t & ET & Wt & ST & LT & VT). rewrite ET. cbn [bind].
    destruct (scalar_mul_ok KO KS CO KL CL t (weight sm x k *c c) Wt) as (Wp & Sp & _ & _ & _). set (pp := series_scalar_mul KO CO t (weight sm x k *c c)) in *.
    assert (Lp : s_log2 pp = 0%nat) by (apply scalar_log2; exact LT). rewrite ST in Sp.
    assert (SZ' : Z.of_nat (len (s_ss r) + len (s_ss pp)) <= imax size_t). { rewrite Sp. destruct SS as [->|[_ ->]]; [exact SZ|]. cbn [series_default s_ss List.length]. lia. }
    destruct (in_place_ok KO KS CO CO PO PO TO KL CL CL (fun c => c) eq_refl (fun _ _ => eq_refl) true r false pp Wr Wp SZ' ltac:(discriminate)) as [(r' & E' & Wr' & U' & L' & D' & _)|[_ H]].
    + exists r'. split; [exact E'|]. split; [exact Wr'|]. split; [congruence|]. split.
      * left. apply sorted_ext; [apply (wf_ss _ _ _ _ Wr')|exact Hs|]. intros z. rewrite U', Sp. destruct SS as [->|[_ ->]]; cbn; tauto.
      * intros us CV Q. rewrite vt_psum, D', map_app, (psum_app CO CL), <- !vt_psum. cbn [sg]. f_equal; [apply SM; exact CV|]. unfold pp; rewrite (scalar_vt t _ us Wt Q).
        cbn [map]. rewrite (psum_map CO CL Q (fun v => v) (fun c0 => c0 *c (weight sm x k *c c)) CO (vt KS us t)) by (intros; ring). rewrite VT. rewrite !(psum_cons CO CL). cbn [fst snd sterm]. rewrite X'. rewrite !psum_nil. destruct (Q _); cbn [ifP]; ring.
    + exfalso. destruct H as [(u & SU & IU & UN)|[[F _]|[F _]]]; [|congruence|congruence].
      assert (u = s_ss x) as -> by (apply sorted_ext; auto; intros z; rewrite IU, Sp; destruct SS as [->|[_ ->]]; cbn; tauto).
      destruct UN as [UN|UN]; [destruct SS as [SS|[_ SS]]|].
      * rewrite <- SS in UN. exact (not_unrep_self KO KS CO KL r Wr UN).
      * subst r. destruct UN as (? & ? & [] & _).
      * rewrite <- Sp in UN. exact (not_unrep_self KO KS CO KL pp Wp UN).
  - exists r. split; [exact E|]. split; [exact Wr|]. split; [exact SS|exact SM].
Qed.
End Subs.
