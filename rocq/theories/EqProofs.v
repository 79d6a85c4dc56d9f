(** Comparison of series over any coefficient type: proofs. *)
From Coq Require Import ZArith List Bool String Arith Lia Permutation Sorted Ring Ring_theory.
From Verif Require Import Base SymSpec SymModel SymProofs P_Sym PMonSpec KeyOps SeriesModel SeriesModel2 SeriesSpec PolyModel PolyModel2
  SeriesProofs SeriesProofs2 SeriesProofs3 SeriesProofs4 SeriesProofs5 SeriesProofs6 Lin EvalSpec SeriesEval SeriesProofs7 P_Series LfSpec LfProofs LfProofs2 RecModel6.
Import ListNotations.
Open Scope Z_scope.
Open Scope res_scope.
Local Notation len := List.length.

(** The coefficients stored for a monomial compare equal, or there is none on both sides. *)
Definition entries_equal {C1 C2} (ceq : C1 -> C2 -> res bool) (a : option C1) (b : option C2) : Prop :=
  match a, b with Some c, Some d => ceq c d = Ok true | None, None => True | _, _ => False end.
(** They compare different, or there is one on one side only. *)
Definition entries_differ {C1 C2} (ceq : C1 -> C2 -> res bool) (a : option C1) (b : option C2) : Prop :=
  match a, b with Some c, Some d => ceq c d = Ok false | None, None => False | _, _ => True end.

Lemma missing {K} (dec : forall a b : K, {a = b} + {a <> b}) (l m : list K) : (exists k, In k l /\ ~ In k m) \/ incl l m.
Proof.
  induction l as [|k l IH]; [right; intros k []|]. destruct (in_dec dec k m) as [J|J]; [|left; exists k; split; [left; reflexivity|exact J]].
  destruct IH as [(k' & I & N)|IH]; [left; exists k'; split; [right; exact I|exact N]|]. right. intros x [<-|I]; auto.
Qed.

Section E.
Context {K C1 C2 Tag : Type} (KO : key_ops K) (KS : key_sem K) (CO1 : cf_ops C1) (CO2 : cf_ops C2) (PO1 : tbl_policy (K * C1)) (PO2 : tbl_policy (K * C2)) (TO : tag_ops Tag).
Hypothesis KL : key_laws KO KS.
Hypothesis LL1 : light_laws CO1.
Hypothesis LL2 : light_laws CO2.
Variable ceq : C1 -> C2 -> res bool.
Notation LWF1 := (lwf KO KS CO1).
Notation LWF2 := (lwf KO KS CO2).
Notation sget1 := (sget (C := C1) (Tag := Tag) KO).
Notation sget2 := (sget (C := C2) (Tag := Tag) KO).

Lemma cmp_lf (a : series K C1 Tag) (b : series K C2 Tag) : wf KO KS CO1 a -> wf KO KS CO2 b -> s_ss a = s_ss b ->
  let out := lf_cmp KO TO ceq a b in
  (out = Ok true /\ tags_equal TO (s_tag a) (s_tag b) /\ forall k, entries_equal ceq (sget1 a k) (sget2 b k)) \/
  (out = Ok false /\ (~ tags_equal TO (s_tag a) (s_tag b) \/ exists k, ks_valid KS (len (s_ss a)) k /\ entries_differ ceq (sget1 a k) (sget2 b k))) \/
  (tags_equal TO (s_tag a) (s_tag b) /\ exists k c d, In (k, c) (terms a) /\ In (k, d) (terms b) /\ out = ceq c d /\ forall q, ceq c d <> Ok q).
Proof.
  intros WA WB SS out. unfold out, lf_cmp. clear out. rewrite !size_terms.
  match goal with |- context [if ?x then Ok false else _] => set (td := x) end.
  assert (TD : td = true <-> ~ tags_equal TO (s_tag a) (s_tag b)).
  { unfold td, tags_equal. destruct (tag_eqb TO) as [e|]; [|split; [discriminate|tauto]]. rewrite negb_true_iff. destruct (e (s_tag a) (s_tag b)); split; congruence. }
  destruct td.
  { right. left. split; [reflexivity|]. left. apply TD. reflexivity. }
  assert (TG : tags_equal TO (s_tag a) (s_tag b)).
  { unfold tags_equal in *. destruct (tag_eqb TO) as [e|]; [|exact I]. destruct (e (s_tag a) (s_tag b)); [reflexivity|]. destruct TD as [_ TD]. discriminate TD. congruence. }
  pose proof (wf_keys _ _ _ _ WA) as NA. pose proof (wf_keys _ _ _ _ WB) as NB.
  assert (NONE1 : forall k, ~ In k (map fst (terms a)) -> sget1 a k = None).
  { intros k N. destruct (sget1 a k) as [c|] eqn:E; [|reflexivity]. apply (sget_in KO KS CO1 KL a k c WA) in E. elim N. apply (in_map fst) in E. exact E. }
  assert (NONE2 : forall k, ~ In k (map fst (terms b)) -> sget2 b k = None).
  { intros k N. destruct (sget2 b k) as [c|] eqn:E; [|reflexivity]. apply (sget_in KO KS CO2 KL b k c WB) in E. elim N. apply (in_map fst) in E. exact E. }
  assert (V1 : forall k c, In (k, c) (terms a) -> ks_valid KS (len (s_ss a)) k) by (intros k c I; exact (wf_valid _ _ _ _ WA k c I)).
  destruct (Nat.eqb_spec (len (terms a)) (len (terms b))) as [EL|NL]; cbn [negb].
  2:{ right. left. split; [reflexivity|]. right. destruct (missing (k_dec KO KS KL) (map fst (terms a)) (map fst (terms b))) as [(k & I & N)|I1].
      - apply in_map_iff in I as ([k' c] & E & I). cbn in E. subst k'. exists k. split; [eauto|]. rewrite (NONE2 k N). rewrite (proj2 (sget_in KO KS CO1 KL a k c WA) I). exact Logic.I.
      - destruct (missing (k_dec KO KS KL) (map fst (terms b)) (map fst (terms a))) as [(k & I & N)|I2].
        + apply in_map_iff in I as ([k' c] & E & I). cbn in E. subst k'. exists k. split; [rewrite SS; exact (wf_valid _ _ _ _ WB k c I)|]. rewrite (NONE1 k N). rewrite (proj2 (sget_in KO KS CO2 KL b k c WB) I). exact Logic.I.
        + exfalso. apply NL. pose proof (NoDup_incl_length NA I1) as H1. pose proof (NoDup_incl_length NB I2) as H2. rewrite !map_length in *. lia. }
  assert (LOOP : forall l, incl l (terms a) -> let out := (fix loop (l : list (K * C1)) : res bool :=
       match l with
       | [] => Ok true
       | (k, c) :: l' =>
           it <- series_find KO b k ;;
           if it_eqb it (series_end b) then Ok false
           else e <- it_deref b it ;; q <- ceq c (snd e) ;; if negb q then Ok false else loop l'
       end) l in
     (out = Ok true /\ forall k c, In (k, c) l -> exists d, In (k, d) (terms b) /\ ceq c d = Ok true) \/
     (out = Ok false /\ exists k c, In (k, c) l /\ entries_differ ceq (Some c) (sget2 b k)) \/
     (exists k c d, In (k, c) l /\ In (k, d) (terms b) /\ out = ceq c d /\ forall q, ceq c d <> Ok q)).
  { induction l as [|[k c] l IH]; intros IL; cbn zeta.
    - left. split; [reflexivity|]. intros k c [].
    - destruct (find_ok KO KS CO2 KL b k WB) as [(it & d & E & NE & ED & I)|[E NI]]; rewrite E; cbn [bind].
      + rewrite NE, ED. cbn [bind snd]. destruct (ceq c d) as [[|]| |] eqn:EQ; cbn [bind negb].
        * destruct (IH (fun x J => IL x (or_intror J))) as [[E1 H1]|[(E1 & k1 & c1 & I1 & D1)|(k1 & c1 & d1 & I1 & J1 & E1 & N1)]].
          -- left. split; [exact E1|]. intros k1 c1 [[= <- <-]|J]; [exists d; auto|apply H1; exact J].
          -- right. left. split; [exact E1|]. exists k1, c1. split; [right; exact I1|exact D1].
          -- right. right. exists k1, c1, d1. split; [right; exact I1|auto].
        * right. left. split; [reflexivity|]. exists k, c. split; [left; reflexivity|]. rewrite (proj2 (sget_in KO KS CO2 KL b k d WB) I). exact EQ.
        * right. right. exists k, c, d. split; [left; reflexivity|]. split; [exact I|]. split; [symmetry; exact EQ|congruence].
        * right. right. exists k, c, d. split; [left; reflexivity|]. split; [exact I|]. split; [symmetry; exact EQ|congruence].
      + assert (it_eqb (series_end b) (series_end b) = true) as ->. { unfold it_eqb, series_end. cbn [fst snd]. rewrite Nat.eqb_refl. reflexivity. }
        right. left. split; [reflexivity|]. exists k, c. split; [left; reflexivity|]. rewrite (NONE2 k NI). exact Logic.I. }
  destruct (LOOP (terms a) (incl_refl _)) as [[E1 H1]|[(E1 & k1 & c1 & I1 & D1)|(k1 & c1 & d1 & I1 & J1 & E1 & N1)]].
  - left. split; [exact E1|]. split; [exact TG|]. intros k.
    destruct (sget1 a k) as [c|] eqn:GA.
    + apply (sget_in KO KS CO1 KL a k c WA) in GA. destruct (H1 k c GA) as (d & J & EQ). rewrite (proj2 (sget_in KO KS CO2 KL b k d WB) J). exact EQ.
    + destruct (sget2 b k) as [d|] eqn:GB; [|exact Logic.I]. apply (sget_in KO KS CO2 KL b k d WB) in GB. exfalso.
      assert (IN : incl (map fst (terms b)) (map fst (terms a))).
      { apply (NoDup_length_incl NA); [rewrite !map_length; lia|]. intros z Iz. apply in_map_iff in Iz as ([z' c] & Ez & Iz). cbn in Ez. subst z'. destruct (H1 z c Iz) as (d' & J & _). apply (in_map fst) in J. exact J. }
      apply (in_map fst) in GB. apply IN in GB. cbn [fst] in GB. apply in_map_iff in GB as ([k' c] & E & I). cbn in E. subst k'. apply (sget_in KO KS CO1 KL a k c WA) in I. congruence.
  - right. left. split; [exact E1|]. right. exists k1. split; [eauto|]. rewrite (proj2 (sget_in KO KS CO1 KL a k1 c1 WA) I1). exact D1.
  - right. right. split; [exact TG|]. exists k1, c1, d1. auto.
Qed.

Lemma equal_lf (x : series K C1 Tag) (y : series K C2 Tag) : LWF1 x -> LWF2 y -> Z.of_nat (len (s_ss x) + len (s_ss y)) <= imax size_t ->
  let out := lf_equal_to KO CO1 CO2 PO1 PO2 TO ceq x y in
  exists u, union_of (s_ss x) (s_ss y) u /\
  ((out = Ok true /\ tags_equal TO (s_tag x) (s_tag y) /\ forall us ws, incl u us -> entries_equal ceq (entry KS us x ws) (entry KS us y ws)) \/
   (out = Ok false /\ (~ tags_equal TO (s_tag x) (s_tag y) \/ exists ws, entries_differ ceq (entry KS u x ws) (entry KS u y ws))) \/
   (tags_equal TO (s_tag x) (s_tag y) /\ exists ws c d, entry KS u x ws = Some c /\ entry KS u y ws = Some d /\ out = ceq c d /\ forall q, ceq c d <> Ok q) \/
   (key_overflow out /\ (unrep KS u x \/ unrep KS u y \/ full (s_log2 x) (len (terms x)) \/ full (s_log2 y) (len (terms y))))).
Proof.
  intros WX WY SZ out.
  assert (FIN : forall u (a : series K C1 Tag) (b : series K C2 Tag), LWF1 a -> LWF2 b -> s_ss a = u -> s_ss b = u -> s_tag a = s_tag x -> s_tag b = s_tag y ->
      (forall us ws, incl u us -> entry KS us a ws = entry KS us x ws) -> (forall us ws, incl u us -> entry KS us b ws = entry KS us y ws) -> 
      let out := lf_cmp KO TO ceq a b in
      (out = Ok true /\ tags_equal TO (s_tag x) (s_tag y) /\ forall us ws, incl u us -> entries_equal ceq (entry KS us x ws) (entry KS us y ws)) \/
      (out = Ok false /\ (~ tags_equal TO (s_tag x) (s_tag y) \/ exists ws, entries_differ ceq (entry KS u x ws) (entry KS u y ws))) \/
      (tags_equal TO (s_tag x) (s_tag y) /\ exists ws c d, entry KS u x ws = Some c /\ entry KS u y ws = Some d /\ out = ceq c d /\ forall q, ceq c d <> Ok q)).
  { intros u a b WA WB SA SB TA TB DA DB. cbn zeta. pose proof (lw_wf _ _ _ _ WA) as WA'. pose proof (lw_wf _ _ _ _ WB) as WB'.
    rewrite <- TA, <- TB. destruct (cmp_lf a b WA' WB' ltac:(congruence)) as [(E & T & H)|[(E & H)|(T & k & c & d & I & J & E & N)]].
    - left. split; [exact E|]. split; [exact T|]. intros us ws IU. rewrite <- DA, <- DB by exact IU.
      destruct (entry KS us a ws) as [c|] eqn:EA.
      + pose proof EA as X. apply (entry_in KO KS CO1 KL) in X as (k & Ik & EW); [|exact WA'|rewrite SA; exact IU]. pose proof (wf_valid _ _ _ _ WA' k c Ik) as V.
        rewrite (entry_at KO KS CO2 KL us b k ws WB'); [|rewrite SB; exact IU|rewrite SB, <- SA; exact V|rewrite SB, <- SA; exact EW].
        specialize (H k). rewrite (proj2 (sget_in KO KS CO1 KL a k c WA') Ik) in H. exact H.
      + destruct (entry KS us b ws) as [d|] eqn:EB; [|exact Logic.I]. exfalso.
        pose proof EB as X. apply (entry_in KO KS CO2 KL) in X as (k & Ik & EW); [|exact WB'|rewrite SB; exact IU]. pose proof (wf_valid _ _ _ _ WB' k d Ik) as V.
        rewrite (entry_at KO KS CO1 KL us a k ws WA') in EA; [|rewrite SA; exact IU|rewrite SA, <- SB; exact V|rewrite SA, <- SB; exact EW].
        specialize (H k). rewrite EA, (proj2 (sget_in KO KS CO2 KL b k d WB') Ik) in H. exact H.
    - right. left. split; [exact E|]. destruct H as [H|(k & V & H)]; [left; exact H|]. right. exists (spread (s_ss a) u (ks_exps KS (len (s_ss a)) k)).
      rewrite <- DA, <- DB by apply incl_refl. 
      rewrite (entry_at KO KS CO1 KL u a k _ WA'), (entry_at KO KS CO2 KL u b k _ WB'); try (rewrite SA || rewrite SB; apply incl_refl); try exact V; try reflexivity; try (rewrite SB, <- SA; exact V || reflexivity). exact H.
    - right. right. split; [exact T|]. exists (spread (s_ss a) u (ks_exps KS (len (s_ss a)) k)), c, d. rewrite <- DA, <- DB by apply incl_refl.
      split; [apply (entry_in KO KS CO1 KL); [exact WA'|rewrite SA; apply incl_refl|eauto]|].
      split; [apply (entry_in KO KS CO2 KL); [exact WB'|rewrite SB; apply incl_refl|exists k; split; [exact J|rewrite SB, <- SA; reflexivity]]|]. auto. }
  unfold out, lf_equal_to. clear out. destruct (ss_eqb (s_ss x) (s_ss y)) eqn:ES.
  - apply ss_eqb_iff in ES. exists (s_ss x). split; [split; [apply (wf_ss _ _ _ _ (lw_wf _ _ _ _ WX))|]; intros z; rewrite <- ES; tauto|].
    destruct (FIN (s_ss x) x y WX WY eq_refl (eq_sym ES) eq_refl eq_refl (fun _ _ _ => eq_refl) (fun _ _ _ => eq_refl)) as [H|[H|H]]; auto.
  - pose proof (lw_wf _ _ _ _ WX) as WX'. pose proof (lw_wf _ _ _ _ WY) as WY'.
    destruct (merge_symbol_sets_exact (s_ss x) (s_ss y) (wf_ss _ _ _ _ WX') (wf_ss _ _ _ _ WY') SZ) as (u & mx & my & EM & SU & IU & IX & IY & MX & MY & _).
    rewrite EM. cbn [bind]. exists u. split; [split; auto|].
    pose proof (extend_lf KO KS CO1 PO1 TO KL LL1 (s_tag x) x mx u WX MX IX SU) as EX.
    pose proof (extend_lf KO KS CO2 PO2 TO KL LL2 (s_tag y) y my u WY MY IY SU) as EY.
    assert (BX : mx = [] -> s_ss x = u) by (intros ->; exact (eq_trans (eq_sym (insert_nil _ 0)) IX)).
    assert (BY : my = [] -> s_ss y = u) by (intros ->; exact (eq_trans (eq_sym (insert_nil _ 0)) IY)).
    destruct mx as [|p1 mx'], my as [|p2 my']; cbn [map_empty].
    + exfalso. rewrite (proj2 (ss_eqb_iff _ _)) in ES; [discriminate|]. rewrite BX, BY; auto.
    + destruct EY as [(b & Eb & Wb & Sb & Tb & Lb & Db & Nb)|[E H]].
      * rewrite Eb. cbn [bind]. destruct (FIN u x b WX Wb (BX eq_refl) Sb eq_refl Tb (fun _ _ _ => eq_refl) Db) as [H|[H|H]]; auto.
      * right. right. right. split; [destruct E as [E|E]; rewrite E; [left|right]; reflexivity|]. destruct H as [H|H]; [right; left; exact H|right; right; right; exact H].
    + destruct EX as [(a & Ea & Wa & Sa & Ta & La & Da & Na)|[E H]].
      * rewrite Ea. cbn [bind]. destruct (FIN u a y Wa WY Sa (BY eq_refl) Ta eq_refl Da (fun _ _ _ => eq_refl)) as [H|[H|H]]; auto.
      * right. right. right. split; [destruct E as [E|E]; rewrite E; [left|right]; reflexivity|]. destruct H as [H|H]; [left; exact H|right; right; left; exact H].
    + destruct EX as [(a & Ea & Wa & Sa & Ta & La & Da & Na)|[E H]].
      2: { right. right. right. split; [destruct E as [E|E]; rewrite E; [left|right]; reflexivity|]. destruct H as [H|H]; [left; exact H|right; right; left; exact H]. }
      rewrite Ea. cbn [bind]. destruct EY as [(b & Eb & Wb & Sb & Tb & Lb & Db & Nb)|[E H]].
      * rewrite Eb. cbn [bind]. destruct (FIN u a b Wa Wb Sa Sb Ta Tb Da Db) as [H|[H|H]]; auto.
      * right. right. right. split; [destruct E as [E|E]; rewrite E; [left|right]; reflexivity|]. destruct H as [H|H]; [right; left; exact H|right; right; right; exact H].
Qed.
End E.

(** Comparison with an object of lower rank. *)
Section EC.
Context {K C Tag T : Type} (KO : key_ops K) (KS : key_sem K) (CO : cf_ops C).
Hypothesis KL : key_laws KO KS.
Lemma equal_cf_lf (t_is_zero : T -> bool) (ceq : C -> T -> res bool) (x : series K C Tag) (t : T) : wf KO KS CO x ->
  let out := lf_equal_to_cf KO t_is_zero ceq x t in let one k := ks_exps KS (len (s_ss x)) k = repeat 0 (len (s_ss x)) in
  (terms x = [] /\ out = Ok (t_is_zero t)) \/
  (exists k c, terms x = [(k, c)] /\ one k /\ out = ceq c t) \/
  (out = Ok false /\ exists k c, In (k, c) (terms x) /\ ~ one k).
Proof.
  intros W out one. unfold out, lf_equal_to_cf. clear out. rewrite size_terms. destruct (terms x) as [|[k c] l] eqn:ET.
  - left. auto.
  - assert (V : forall k c, In (k, c) (terms x) -> ks_valid KS (len (s_ss x)) k) by (intros k' c' I; exact (wf_valid _ _ _ _ W k' c' I)).
    destruct l as [|[k2 c2] l]; cbn [List.length].
    + rewrite (begin_single x (k, c) ET). cbn [bind fst snd]. assert (Vk : ks_valid KS (len (s_ss x)) k) by (apply (V k c); rewrite ET; left; reflexivity).
      pose proof (kl_one _ _ KL k (s_ss x) Vk) as ONE. destruct (k_is_one KO k (s_ss x)) eqn:E1.
      * right. left. exists k, c. split; [reflexivity|]. split; [apply ONE; reflexivity|reflexivity].
      * right. right. split; [reflexivity|]. exists k, c. split; [left; reflexivity|]. intros H. apply ONE in H. discriminate.
    + right. right. split; [reflexivity|]. pose proof (wf_keys _ _ _ _ W) as N. rewrite ET in N. cbn [map fst] in N. inversion N as [|? ? NI _]; subst.
      assert (V1 : ks_valid KS (len (s_ss x)) k) by (apply (V k c); rewrite ET; left; reflexivity).
      assert (V2 : ks_valid KS (len (s_ss x)) k2) by (apply (V k2 c2); rewrite ET; right; left; reflexivity).
      destruct (list_eq_dec Z.eq_dec (ks_exps KS (len (s_ss x)) k) (repeat 0 (len (s_ss x)))) as [Q|Q]; [|exists k, c; split; [left; reflexivity|exact Q]].
      exists k2, c2. split; [right; left; reflexivity|]. intros Q2. apply NI. left. symmetry. apply (kl_inj _ _ KL (len (s_ss x))); auto. unfold one in Q2. congruence.
Qed.
End EC.
