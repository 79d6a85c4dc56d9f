(** Proofs about series.hpp, part 3: in-place operations, scalars, iterators, lookup. *)
From Coq Require Import ZArith List Bool String Arith Sorted Permutation Lia Ring Ring_theory.
From Verif Require Import Base IntModel SymModel SymSpec SymProofs P_Sym PMonSpec PMonProofs2 KeyOps SeriesModel SeriesModel2 SeriesSpec SeriesProofs SeriesProofs2.
Import ListNotations.
Open Scope Z_scope.

Section InPlace.
Context {K C CY Tag : Type} (KO : key_ops K) (KS : key_sem K) (CO : cf_ops C) (COY : cf_ops CY) (PO : tbl_policy (K * C)) (POY : tbl_policy (K * CY)) (TO : tag_ops Tag).
Hypothesis KL : key_laws KO KS.
Hypothesis CL : cf_laws CO.
Hypothesis CLY : cf_laws COY.
Variable g : CY -> C.
Hypothesis G0 : g (c_zero COY) = c_zero CO.
Hypothesis G1 : forall a b, g (c_add COY a b) = c_add CO (g a) (g b).
Notation "0c" := (c_zero CO).
Infix "+c" := (c_add CO) (at level 50, left associativity).

Definition inplace_good sign (x : series K C Tag) (y : series K CY Tag) (out : res (series K C Tag)) : Prop :=
  (exists r, out = Ok r /\ wf KO KS CO r /\
     (forall z, In z (s_ss r) <-> In z (s_ss x) \/ In z (s_ss y)) /\ s_log2 r = s_log2 x /\
     (forall us Q, nden KS CO us r Q = nden KS CO us x Q +c sg CO sign (g (nden KS COY us y Q))) /\
     (len (terms r) <= len (terms x) + len (terms y))%nat) \/
  ((out = Throw overflow_error \/ out = Throw safe_cast_failure) /\
   ((exists u, sorted_set u /\ (forall z, In z u <-> In z (s_ss x) \/ In z (s_ss y)) /\ (unrep KS u x \/ unrep KS u y)) \/
    full (s_log2 x) (len (terms x) + len (terms y)) \/ full (s_log2 y) (len (terms x) + len (terms y)))).

Lemma in_place_same_ok sign (lhs : series K C Tag) (rhs : series K CY Tag) : wf KO KS CO lhs -> wf KO KS COY rhs -> s_ss rhs = s_ss lhs ->
  (exists r, in_place_with_identical_ss KO CO PO sign g lhs false rhs = Ok r /\ wf KO KS CO r /\ s_ss r = s_ss lhs /\ s_log2 r = s_log2 lhs /\ s_tag r = s_tag lhs /\
     (forall P, psum CO P (terms r) = psum CO P (terms lhs) +c sg CO sign (g (psum COY P (terms rhs)))) /\
     (len (terms r) <= len (terms lhs) + len (terms rhs))%nat) \/
  (in_place_with_identical_ss KO CO PO sign g lhs false rhs = Throw overflow_error /\ full (s_log2 lhs) (len (terms lhs) + len (terms rhs))).
Proof.
  intros WL WR SS. unfold in_place_with_identical_ss. fold (add_all KO CO PO sign g lhs (terms rhs)).
  destruct (add_all_ok KO KS CO PO KL CL sign g lhs (terms rhs) WL) as [(r & E & W & (M1 & M2 & M3) & P & _ & N)|(E & L & B)].
  - intros k c I. rewrite <- SS. eapply (wf_valid _ _ _ _ WR). exact I.
  - left. exists r. split; [exact E|]. split; [exact W|]. split; [congruence|]. split; [congruence|]. split; [congruence|]. split.
    + intros Q. rewrite P, (psum_cv CO CL COY); auto.
    + unfold cv in N. rewrite map_length in N. lia.
  - right. split; [exact E|]. split; assumption.
Qed.

Lemma in_place_ok sign (x : series K C Tag) aliased (y : series K CY Tag) : wf KO KS CO x -> wf KO KS COY y ->
  Z.of_nat (len (s_ss x) + len (s_ss y)) <= imax size_t -> (aliased = true -> s_ss x = s_ss y) ->
  inplace_good sign x y (series_in_place_addsub KO CO PO COY POY TO sign g x aliased y).
Proof.
  intros WX WY SZ AL. unfold series_in_place_addsub. destruct (ss_eqb (s_ss x) (s_ss y)) eqn:ES.
  - apply ss_eqb_iff in ES.
    assert (X : (if aliased then in_place_with_identical_ss KO CO PO sign g x false y else in_place_with_identical_ss KO CO PO sign g x aliased y) =
                in_place_with_identical_ss KO CO PO sign g x false y) by (destruct aliased; reflexivity).
    rewrite X. destruct (in_place_same_ok sign x y WX WY (eq_sym ES)) as [(r & E & W & S1 & L & T & P & N)|(E & F)].
    + left. exists r. split; [exact E|]. split; [exact W|]. split; [rewrite S1, <- ES; tauto|]. split; [exact L|]. split; [|exact N].
      intros us Q. unfold nden, vden. rewrite P, S1, <- ES. reflexivity.
    + right. split; [left; exact E|]. right. left. exact F.
  - assert (aliased = false) as ->. { destruct aliased; [|reflexivity]. rewrite (proj2 (ss_eqb_iff _ _)) in ES; [discriminate|auto]. }
    destruct (merge_symbol_sets_exact (s_ss x) (s_ss y) (wf_ss _ _ _ _ WX) (wf_ss _ _ _ _ WY) SZ) as (u & mx & my & EM & SU & IU & IX & IY & MX & MY & _).
    rewrite EM. cbn [bind].
    assert (CX' : incl (s_ss x) u) by (intros z Iz; apply IU; auto).
    assert (CY' : incl (s_ss y) u) by (intros z Iz; apply IU; auto).
    pose proof (extend_ok KO KS CO CO PO TO KL CL (fun c => c) eq_refl (fun _ _ => eq_refl) (tag_default TO) true x mx u WX MX IX SU (or_introl eq_refl)) as EX.
    pose proof (extend_ok KO KS COY COY POY TO KL CLY (fun c => c) eq_refl (fun _ _ => eq_refl) (tag_default TO) true y my u WY MY IY SU (or_introl eq_refl)) as EY.
    assert (FIN : forall (a : series K C Tag) (b : series K CY Tag),
      wf KO KS CO a -> wf KO KS COY b -> s_ss a = u -> s_ss b = u ->
      (forall Q, vden KS CO a Q = vden KS CO x (fun v => Q (spread (s_ss x) u v))) ->
      (forall Q, vden KS COY b Q = vden KS COY y (fun v => Q (spread (s_ss y) u v))) ->
      (len (terms a) <= len (terms x))%nat -> (len (terms b) <= len (terms y))%nat -> s_log2 a = s_log2 x -> s_log2 b = s_log2 y ->
      inplace_good sign x y (in_place_with_identical_ss KO CO PO sign g a false b)).
    { intros a b WA WB SA SB DA DB NA NB LA LB.
      destruct (in_place_same_ok sign a b WA WB) as [(r & E & W & S1 & L & _ & P & N)|(E & [F1 F2])]; [congruence| |].
      - left. exists r. split; [exact E|]. split; [exact W|]. split; [rewrite S1, SA; exact IU|]. split; [congruence|]. split; [|lia]. intros us Q.
        rewrite <- (vden_spread KS CO u us x Q CX'), <- (vden_spread KS COY u us y Q CY').
        rewrite <- (DA (fun v => Q (spread u us v))), <- (DB (fun v => Q (spread u us v))).
        unfold nden, vden. rewrite P, S1, SA, SB. reflexivity.
      - right. split; [left; exact E|]. right. left. rewrite LA in *. split; [exact F1|lia]. }
    assert (BX : mx = [] -> s_ss x = u) by (intros ->; exact (eq_trans (eq_sym (insert_nil _ 0)) IX)).
    assert (BY : my = [] -> s_ss y = u) by (intros ->; exact (eq_trans (eq_sym (insert_nil _ 0)) IY)).
    assert (IDX : s_ss x = u -> forall Q, vden KS CO x Q = vden KS CO x (fun v => Q (spread (s_ss x) u v))).
    { intros E Q. unfold vden, psum. f_equal. f_equal. apply filter_ext_in. intros [k c] I. cbn [fst]. rewrite <- E, spread_self; auto; [apply sorted_set_nodup, (wf_ss _ _ _ _ WX)|apply (kl_len _ _ KL), (wf_valid _ _ _ _ WX k c I)]. }
    assert (IDY : s_ss y = u -> forall Q, vden KS COY y Q = vden KS COY y (fun v => Q (spread (s_ss y) u v))).
    { intros E Q. unfold vden, psum. f_equal. f_equal. apply filter_ext_in. intros [k c] I. cbn [fst]. rewrite <- E, spread_self; auto; [apply sorted_set_nodup, (wf_ss _ _ _ _ WY)|apply (kl_len _ _ KL), (wf_valid _ _ _ _ WY k c I)]. }
    assert (ERX : forall f, (exists k c, In (k, c) (terms x) /\ ~ ks_fits KS (spread (s_ss x) u (ks_exps KS (len (s_ss x)) k))) \/
      s_log2 x <> 0%nat /\ max_table_size (s_log2 x) <= Z.of_nat (len (terms x)) ->
      (extend_to KO CO PO TO (tag_default TO) true (fun c => c) u x mx = Throw overflow_error \/ extend_to KO CO PO TO (tag_default TO) true (fun c => c) u x mx = Throw safe_cast_failure) ->
      inplace_good sign x y (bind (extend_to KO CO PO TO (tag_default TO) true (fun c => c) u x mx) f)).
    { intros f H [E|E]; rewrite E; cbn [bind]; right; (split; [auto|]); (destruct H as [H|[H1 H2]]; [left; exists u; split; [exact SU|]; split; [exact IU|]; left; exact H|right; left; split; [exact H1|lia]]). }
    assert (ERY : forall f, (exists k c, In (k, c) (terms y) /\ ~ ks_fits KS (spread (s_ss y) u (ks_exps KS (len (s_ss y)) k))) \/
      s_log2 y <> 0%nat /\ max_table_size (s_log2 y) <= Z.of_nat (len (terms y)) ->
      (extend_to KO COY POY TO (tag_default TO) true (fun c => c) u y my = Throw overflow_error \/ extend_to KO COY POY TO (tag_default TO) true (fun c => c) u y my = Throw safe_cast_failure) ->
      inplace_good sign x y (bind (extend_to KO COY POY TO (tag_default TO) true (fun c => c) u y my) f)).
    { intros f H [E|E]; rewrite E; cbn [bind]; right; (split; [auto|]); (destruct H as [H|[H1 H2]]; [left; exists u; split; [exact SU|]; split; [exact IU|]; right; exact H|right; right; split; [exact H1|lia]]). }
    destruct mx as [|p1 mx'], my as [|p2 my']; cbn [map_empty].
    + exfalso. rewrite (proj2 (ss_eqb_iff _ _)) in ES; [discriminate|]. rewrite BX, BY; auto.
    + destruct EY as [(b & Eb & Wb & Sb & _ & Lb & Db & Nb)|[E H]]; [|apply ERY; assumption].
      rewrite Eb. cbn [bind]. apply FIN; auto.
    + destruct EX as [(a & Ea & Wa & Sa & _ & La & Da & Na)|[E H]]; [|apply ERX; assumption].
      rewrite Ea. cbn [bind]. apply FIN; auto.
    + destruct EX as [(a & Ea & Wa & Sa & _ & La & Da & Na)|[E H]]; [|apply ERX; assumption].
      rewrite Ea. cbn [bind].
      destruct EY as [(b & Eb & Wb & Sb & _ & Lb & Db & Nb)|[E H]]; [|apply ERY; assumption].
      rewrite Eb. cbn [bind]. apply FIN; auto.
Qed.
End InPlace.

(** ** Lookup and iteration *)
Section Look.
Context {K C Tag : Type} (KO : key_ops K) (KS : key_sem K) (CO : cf_ops C).
Hypothesis KL : key_laws KO KS.
Hypothesis CL : cf_laws CO.
Add Ring Cring2 : (cl_ring CO CL).

Lemma position_none (t : list (K * C)) k : tbl_position KO t k = None <-> ~ In k (map fst t).
Proof.
  induction t as [|[x c] t IH]; cbn [tbl_position map fst]; [split; auto; intros _ []|].
  destruct (k_eqb KO x k) eqn:E.
  - apply (kl_eqb _ _ KL) in E. split; [discriminate|]. intros H. elim H. left. exact E.
  - apply (keqb_neq KO KS KL) in E. destruct (tbl_position KO t k); cbn [option_map].
    + split; [discriminate|]. intros H. exfalso. destruct IH as [_ IH]. assert (X : Some n = None) by (apply IH; intros I; apply H; right; exact I). discriminate.
    + split; auto. intros _ [I|I]; [congruence|]. apply (proj1 IH eq_refl I).
Qed.

Lemma position_some (t : list (K * C)) k p : tbl_position KO t k = Some p -> exists c, nth_error t p = Some (k, c).
Proof.
  revert p. induction t as [|[x c] t IH]; intros p; cbn [tbl_position fst]; [discriminate|].
  destruct (k_eqb KO x k) eqn:E.
  - intros H. inversion H. apply (kl_eqb _ _ KL) in E. subst. exists c. reflexivity.
  - destruct (tbl_position KO t k) as [q|]; [|discriminate]. cbn [option_map]. intros H. inversion H. destruct (IH q eq_refl) as (d & Hd). exists d. exact Hd.
Qed.

Lemma find_ok (s : series K C Tag) k : wf KO KS CO s ->
  (exists it c, series_find KO s k = Ok it /\ it_eqb it (series_end s) = false /\ it_deref s it = Ok (k, c) /\ In (k, c) (terms s)) \/
  (series_find KO s k = Ok (series_end s) /\ ~ In k (map fst (terms s))).
Proof.
  intros W. pose proof W as W0. apply wf_iff in W as (W1 & W2 & W3 & W4). destruct (table_index_ok KO KS KL s k W3) as [TI TL].
  unfold series_find. set (i := table_index KO (len (s_tables s)) k) in *.
  destruct (nth_error (s_tables s) i) as [t|] eqn:Ht; [|apply nth_error_None in Ht; lia].
  assert (rd (s_tables s) i = Ok t) as E by (apply rd_some; exact Ht). rewrite E. cbn [bind].
  destruct (tbl_position KO t k) as [p|] eqn:F.
  - left. apply position_some in F as (c & Hc). exists (i, Some p), c. split; [reflexivity|]. split.
    + unfold it_eqb, series_end. cbn [fst snd]. rewrite andb_false_r. reflexivity.
    + unfold it_deref. cbn [fst snd]. rewrite E. cbn [bind]. split; [apply rd_some; exact Hc|].
      apply in_concat_nth. exists i, t. split; auto. eapply nth_error_In; eauto.
  - right. split; [reflexivity|]. apply position_none in F. intros I. apply F. apply in_map_iff in I as ([k' c] & Ek & I). cbn in Ek. subst k'.
    apply in_concat_nth in I as (j & u & Hu & I). destruct (W4 j u Hu) as (_ & X & _). destruct (X k c I) as (_ & _ & H).
    rewrite H in TI. apply Nat2Z.inj in TI. rewrite TI in Ht. rewrite Ht in Hu. inversion Hu; subst. apply in_map_iff. exists (k, c). auto.
Qed.

Lemma lookup_ok (l : list (K * C)) k c : NoDup (map fst l) -> In (k, c) l -> psum CO (fun x => k_eqb KO x k) l = c.
Proof.
  intros N I. induction l as [|[x d] l IH]; [contradiction|]. cbn [map fst] in N. inversion N; subst. rewrite (psum_cons CO CL). cbn [fst snd].
  destruct I as [I|I].
  - inversion I; subst. rewrite (keqb_refl KO KS KL). cbn [ifP]. rewrite (psum_false CO CL); [ring|].
    intros y e Iy. apply (keqb_neq KO KS KL). intros ->. apply H1. apply in_map_iff. exists (k, e). auto.
  - assert (k_eqb KO x k = false) as ->. { apply (keqb_neq KO KS KL). intros ->. apply H1. apply in_map_iff. exists (k, c). auto. }
    cbn [ifP]. rewrite IH by auto. ring.
Qed.

Lemma lookup_none (l : list (K * C)) k : ~ In k (map fst l) -> psum CO (fun x => k_eqb KO x k) l = c_zero CO.
Proof.
  intros N. apply (psum_false CO CL). intros y e Iy. apply (keqb_neq KO KS KL). intros ->. apply N. apply in_map_iff. exists (k, e). auto.
Qed.

Lemma begin_from_ok (ts : list (list (K * C))) : forall idx,
  (begin_from idx ts = ((idx + len ts)%nat, None) /\ List.concat ts = []) \/
  exists j t, begin_from idx ts = ((idx + j)%nat, Some 0%nat) /\ nth_error ts j = Some t /\ t <> [] /\ List.concat ts = t ++ List.concat (skipn (S j) ts).
Proof.
  induction ts as [|t ts IH]; intros idx; cbn [begin_from List.length].
  - left. rewrite Nat.add_0_r. auto.
  - destruct t as [|e t].
    + destruct (IH (S idx)) as [[E H]|(j & t & E & N & NE & H)].
      * left. rewrite E. split; [f_equal; lia|exact H].
      * right. exists (S j), t. rewrite E. split; [f_equal; lia|]. auto.
    + right. exists 0%nat, (e :: t). rewrite Nat.add_0_r. repeat split; auto; discriminate.
Qed.

Lemma visit_from (s : series K C Tag) : forall n i p t fuel, nth_error (s_tables s) i = Some t -> (p < len t)%nat ->
  n = len (skipn p t ++ List.concat (skipn (S i) (s_tables s))) -> (n <= fuel)%nat ->
  visit fuel s (i, Some p) = Ok (skipn p t ++ List.concat (skipn (S i) (s_tables s))).
Proof.
  induction n as [|n IH]; intros i p t fuel Ht Hp Hn Hf.
  - rewrite app_length, skipn_length in Hn. lia.
  - destruct fuel as [|fuel]; [lia|]. cbn [visit].
    assert (NE : forall q, it_eqb (i, Some q) (series_end s) = false) by (intros q; unfold it_eqb, series_end; cbn [fst snd]; apply andb_false_r).
    rewrite NE. unfold it_deref, it_increment. cbn [fst snd].
    assert (rd (s_tables s) i = Ok t) as -> by (apply rd_some; exact Ht). cbn [bind].
    destruct (nth_error t p) as [e|] eqn:Ep; [|apply nth_error_None in Ep; lia].
    assert (rd t p = Ok e) as -> by (apply rd_some; exact Ep). cbn [bind].
    assert (SK : skipn p t = e :: skipn (S p) t).
    { clear -Ep. revert t Ep. induction p as [|p IH]; intros [|x t] Ep; try discriminate; cbn in *; [congruence|]. apply IH. exact Ep. }
    assert ((len t <=? p)%nat = false) as -> by (apply Nat.leb_gt; lia).
    rewrite SK in Hn. cbn [app List.length] in Hn.
    destruct (Nat.eqb_spec (S p) (len t)) as [EL|NL].
    + assert (SN : skipn (S p) t = []) by (apply skipn_all2; lia). rewrite SK, SN. rewrite SN in Hn. cbn [app] in *. cbn [bind].
      destruct (begin_from_ok (skipn (S i) (s_tables s)) (S i)) as [[E H]|(j & u & E & N & NU & H)].
      * rewrite E, H. cbn [bind]. assert (LL : (S i + len (skipn (S i) (s_tables s)))%nat = len (s_tables s)).
        { rewrite skipn_length. assert (i < len (s_tables s))%nat by (apply nth_error_Some; congruence). lia. }
        rewrite LL. destruct fuel; cbn [visit]; unfold it_eqb, series_end; cbn [fst snd]; rewrite Nat.eqb_refl; reflexivity.
      * rewrite E, H.
        assert (Hu : nth_error (s_tables s) (S i + j) = Some u).
        { rewrite <- N. clear. revert i. induction (s_tables s) as [|x l IH]; intros i; [destruct j; destruct i; reflexivity|]. destruct i as [|i]; [reflexivity|]. cbn [Nat.add skipn nth_error]. apply (IH i). }
        assert (SS : skipn (S j) (skipn (S i) (s_tables s)) = skipn (S (S i + j)) (s_tables s)).
        { clear. rewrite skipn_skipn. f_equal. lia. }
        rewrite SS in *. rewrite (IH (S i + j)%nat 0%nat u fuel Hu); [reflexivity| | |]; cbn [skipn]; try lia.
        -- destruct u; [contradiction|cbn; lia].
        -- rewrite H in Hn. apply eq_add_S in Hn. exact Hn.
    + cbn [bind]. rewrite (IH i (S p) t fuel Ht); [|lia|lia|lia]. rewrite SK. reflexivity.
Qed.

Lemma visit_all (s : series K C Tag) fuel : (series_size s <= fuel)%nat -> visit fuel s (series_begin s) = Ok (terms s).
Proof.
  intros F. rewrite size_terms in F. unfold series_begin, terms in *.
  destruct (begin_from_ok (s_tables s) 0) as [[E H]|(j & u & E & N & NU & H)].
  - rewrite E, H. cbn [Nat.add]. destruct fuel; cbn [visit]; unfold it_eqb, series_end; cbn [fst snd]; rewrite Nat.eqb_refl; reflexivity.
  - rewrite E, H. cbn [Nat.add]. eapply (visit_from s (len (skipn 0 u ++ List.concat (skipn (S j) (s_tables s)))) j 0 u fuel N); [destruct u; [contradiction|cbn; lia]|reflexivity|]. rewrite H in F. exact F.
Qed.

Lemma begin_single (s : series K C Tag) e : terms s = [e] -> it_deref s (series_begin s) = Ok e.
Proof.
  intros T. pose proof (visit_all s 1) as V. rewrite size_terms, T in V. specialize (V (le_n _)). cbn [visit] in V.
  destruct (it_eqb _ _); [discriminate|]. destruct (it_deref s (series_begin s)); cbn [bind] in V; try discriminate.
  destruct (it_increment s (series_begin s)) as [it| |]; cbn [bind] in V; try discriminate.
  destruct (it_eqb it (series_end s)); cbn [bind] in V; [inversion V; reflexivity|discriminate].
Qed.

Lemma is_single_cf_ok (s : series K C Tag) : wf KO KS CO s ->
  exists b, is_single_cf KO s = Ok b /\
    (b = true <-> (forall k c, In (k, c) (terms s) -> ks_exps KS (len (s_ss s)) k = repeat 0 (len (s_ss s)))).
Proof.
  intros W. unfold is_single_cf. rewrite size_terms. pose proof (wf_keys _ _ _ _ W) as N. pose proof (wf_valid _ _ _ _ W) as V. destruct (terms s) as [|[k c] [|[k' c'] l]] eqn:T; cbn [List.length].
  - exists true. split; [reflexivity|]. split; auto. intros _ k c [].
  - rewrite (begin_single s _ T). cbn [bind fst]. eexists. split; [reflexivity|]. rewrite (kl_one _ _ KL) by (apply (V k c); left; reflexivity).
    split; [intros H k' c' [E|[]]; inversion E; subst; exact H|]. intros H. apply (H k c). left. reflexivity.
  - exists false. split; [reflexivity|]. split; [discriminate|]. intros H. exfalso. cbn [map fst] in N. inversion N; subst. apply H2. left.
    apply (kl_inj _ _ KL (len (s_ss s))); [eapply V; right; left; reflexivity|eapply V; left; reflexivity|].
    rewrite (H k c), (H k' c'); [reflexivity|right; left; reflexivity|left; reflexivity].
Qed.
End Look.
