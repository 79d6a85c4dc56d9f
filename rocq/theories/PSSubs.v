(** Substitution of power series in power series: formal sums up to a truncation. *)
From Coq Require Import ZArith List Bool String Arith Sorted Permutation Lia Ring Ring_theory.
From Verif Require Import Base KpackModel KpackSpec IntModel IntSpec SymModel SymSpec SymProofs P_Sym PMonModel PMonSpec KeyOps KeyInst
  SeriesModel SeriesModel2 SeriesSpec SeriesProofs SeriesProofs2 SeriesProofs3 SeriesProofs4 SeriesProofs5 SeriesProofs6 Lin EvalSpec SeriesEval SeriesProofs7 CfInst P_Series P_Series2
  PolyModel PolyModel2 PolySpec PolyProofs7 PolyProofs8 PolyProofs9 P_Poly P_Poly2 PowProofs PowProofs2 CalcSpec DiffProofs PSModel PSSpec PSProofs P_PS PSPow SubsSpec SubsProofs P_Subs PSModel3 PSSubsSpec.
From Verif Require P_PS7 P_Rec6.
Import ListNotations.
Open Scope Z_scope.
Open Scope res_scope.
Local Notation len := List.length.

(** Lists of indexed values: sorted by index with the same elements. *)
Lemma sorted_pairs {A} (a b : list (nat * A)) : StronglySorted lt (map fst a) -> StronglySorted lt (map fst b) -> (forall p, In p a <-> In p b) -> a = b.
Proof.
  revert b. induction a as [|[i u] a IH]; intros [|[j v] b] SA SB H.
  - reflexivity.
  - destruct (proj2 (H (j, v)) (or_introl eq_refl)).
  - destruct (proj1 (H (i, u)) (or_introl eq_refl)).
  - cbn [map fst] in SA, SB. apply StronglySorted_inv in SA as [SA FA]. apply StronglySorted_inv in SB as [SB FB]. rewrite Forall_forall in FA, FB.
    assert (XA : forall k w, In (k, w) a -> (i < k)%nat) by (intros k w J; apply FA, in_map_iff; exists (k, w); auto). assert (XB : forall k w, In (k, w) b -> (j < k)%nat) by (intros k w J; apply FB, in_map_iff; exists (k, w); auto).
    assert (E : (i, u) = (j, v)).
    { destruct (proj1 (H (i, u)) (or_introl eq_refl)) as [E|J]; [auto|]. destruct (proj2 (H (j, v)) (or_introl eq_refl)) as [E|J']; [auto|]. apply XB in J. apply XA in J'. lia. }
    rewrite E. f_equal. apply IH; auto. intros [k w]. injection E as <- <-. specialize (H (k, w)). cbn [In] in H. split; intros J.
    + destruct (proj1 H (or_intror J)) as [X|X]; [injection X as <- <-; apply XA in J; lia|exact X].
    + destruct (proj2 H (or_intror J)) as [X|X]; [injection X as <- <-; apply XB in J; lia|exact X].
Qed.

(** The values of the map at the symbols of the list, with their positions. *)
Fixpoint picked {A} (sm : symbol_map A) (ss : symbol_set) (i : nat) : list (nat * A) :=
  match ss with
  | [] => []
  | z :: ss' => match assoc sm z with Some u => (i, u) :: picked sm ss' (S i) | None => picked sm ss' (S i) end
  end.
Lemma picked_in {A} (sm : symbol_map A) ss : forall i j u, In (j, u) (picked sm ss i) <-> exists n z, j = (i + n)%nat /\ nth_error ss n = Some z /\ assoc sm z = Some u.
Proof.
  induction ss as [|z ss IH]; intros i j u; cbn [picked].
  - split; [intros []|]. intros (n & z & _ & E & _). destruct n; discriminate E.
  - assert (T : In (j, u) (picked sm ss (S i)) <-> exists n z0, j = (i + S n)%nat /\ nth_error ss n = Some z0 /\ assoc sm z0 = Some u).
    { rewrite IH. split; intros (n & z0 & E & H); exists n, z0; (split; [lia|exact H]). }
    assert (G : (exists n z0, j = (i + n)%nat /\ nth_error (z :: ss) n = Some z0 /\ assoc sm z0 = Some u) <-> (j = i /\ assoc sm z = Some u) \/ In (j, u) (picked sm ss (S i))).
    { rewrite T. split.
      - intros (n & z0 & E & N & S0). destruct n as [|n]; cbn [nth_error] in N; [injection N as <-; left; split; [lia|exact S0]|right; exists n, z0; auto].
      - intros [[-> S0]|(n & z0 & E & N & S0)]; [exists O, z; split; [lia|]; split; [reflexivity|exact S0]|exists (S n), z0; auto]. }
    rewrite G. destruct (assoc sm z) as [u'|].
    + cbn [In]. split; (intros [E|J]; [left|right; exact J]); [injection E as <- <-; auto|destruct E as [-> E]; injection E as <-; reflexivity].
    + split; [intros J; right; exact J|intros [[_ X]|J]; [discriminate X|exact J]].
Qed.
Lemma picked_sorted {A} (sm : symbol_map A) ss : forall i, StronglySorted lt (map fst (picked sm ss i)).
Proof.
  induction ss as [|z ss IH]; intros i; cbn [picked]; [constructor|]. destruct (assoc sm z) as [u|]; [|apply IH]. cbn [map fst]. constructor; [apply IH|]. apply Forall_forall. intros j J.
  apply in_map_iff in J as ([j' u'] & <- & J). apply picked_in in J as (n & _ & E & _). cbn. lia.
Qed.
Lemma idx_picked {A} (sm : symbol_map A) ss : sorted_set (map fst sm) -> sorted_set ss -> sm_intersect_idx sm ss = picked sm ss 0.
Proof.
  intros Hm Hs. apply sorted_pairs; [apply idx_sorted; auto|apply picked_sorted|]. intros [i u]. rewrite (idx_iff sm ss Hm Hs), picked_in. split.
  - intros (n & E & A1). exists i, n. auto.
  - intros (n & z & -> & E & A1). exists z. auto.
Qed.

Section PU.
Context {K C : Type} (KO : key_ops K) (KS : key_sem K) (CO : cf_ops C) (PO : tbl_policy (K * C)) (tD : ity).
Context (KL : key_laws KO KS) (CL : cf_laws CO) (HT : integral_type tD) (DI : degrees_in KS tD) (HP : promote tD = tD) (FN : ks_fits KS []).
Notation series := (series K C trunc_t).
Notation WF := (wf KO KS CO).
Notation coef := (coef KS CO).
Notation exps s k := (ks_exps KS (List.length (s_ss s)) k).
Notation "0c" := (c_zero CO).
Infix "+c" := (c_add CO) (at level 50, left associativity).
Infix "*c" := (c_mul CO) (at level 40, left associativity).
Add Ring CringPU : (cl_ring _ CL).
Notation vterm := (list Z * C)%type.
Notation vt := (vt KS).

(** [f_mul], [f_pow] and [f_of] are the lists of terms of PolyProofs9.v and PowProofs2.v. *)
Lemma f_mul_vprod a b : f_mul CO a b = vprod CO a b. Proof. reflexivity. Qed.
Lemma f_of_vt us (s : series) : f_of KS us s = vt us s. Proof. reflexivity. Qed.
Lemma f_pow_powl us (u : series) n : f_pow CO (len us) (f_of KS us u) n = powl KS CO us u n.
Proof. induction n as [|n IH]; [reflexivity|]. cbn [f_pow powl]. rewrite IH. reflexivity. Qed.
Lemma f_coef_psum a ws : f_coef CO a ws = psum CO (fun v => vec_eqb v ws) a. Proof. reflexivity. Qed.

Variables (t : trunc_t) (us : symbol_set).
(** Formal sums over us without terms of negative degree; equality up to the truncation. *)
Definition nn (l : list vterm) : Prop := forall e, In e l -> len (fst e) = len us /\ (t = no_truncation \/ 0 <= degree_of (counted t) us (fst e)).
Definition upto (a b : list vterm) : Prop := forall ws, len ws = len us -> within t us ws = true -> psum CO (fun v => vec_eqb v ws) a = psum CO (fun v => vec_eqb v ws) b.

Lemma within_minus ws (e : list Z) : len ws = len us -> len e = len us -> (t = no_truncation \/ 0 <= degree_of (counted t) us e) -> within t us ws = true -> within t us (vminus ws e) = true.
Proof.
  intros L1 L2 D W. destruct t as [|d|d s]; [reflexivity| |]; cbn [within counted] in *; apply Z.leb_le in W; apply Z.leb_le; (rewrite degree_minus by auto); destruct D as [D|D]; try discriminate D; lia.
Qed.
Lemma nn_prod a b : nn a -> nn b -> nn (vprod CO a b).
Proof.
  intros A B e I. unfold vprod in I. apply in_map_iff in I as ([p q] & <- & I). apply in_prod_iff in I as [I J]. apply A in I as [L1 D1]. apply B in J as [L2 D2]. cbn [vmulp fst snd].
  split; [apply vadd_len; auto|]. rewrite degree_vadd by auto. destruct D1 as [D1|D1]; [auto|]. destruct D2 as [D2|D2]; [auto|right; lia].
Qed.
Lemma upto_prod_r a b b' : nn a -> nn b -> nn b' -> upto b b' -> upto (vprod CO a b) (vprod CO a b').
Proof.
  intros A B B' U ws L W. rewrite !(psum_vprod_minus CO CL) by (intros e I; rewrite L; first [apply (A e I)|apply (B e I)|apply (B' e I)]). f_equal. apply map_ext_in. intros e I. destruct (A e I) as [LE D]. f_equal.
  apply U; [rewrite vminus_len by congruence; exact L|]. apply within_minus; auto.
Qed.
Lemma upto_prod a a' b b' : nn a -> nn a' -> nn b -> nn b' -> upto a a' -> upto b b' -> upto (vprod CO a b) (vprod CO a' b').
Proof.
  intros A A' B B' UA UB ws L W. rewrite (upto_prod_r a b b' A B B' UB ws L W), (same_swap CO CL a b'), (same_swap CO CL a' b'). apply (upto_prod_r b' a a'); auto.
Qed.
Lemma nn_powl (u : series) n : nn (vt us u) -> nn (powl KS CO us u n).
Proof.
  intros H. induction n as [|n IH]; cbn [powl]; [|apply nn_prod; auto]. intros e [<-|[]]. cbn [fst]. split; [apply repeat_length|]. right. apply degree_nonneg. apply Forall_forall. intros y J. apply repeat_spec in J. lia.
Qed.
Lemma nn_vt (s : series) : WF s -> covers us s -> no_negative KS t s -> nn (vt us s).
Proof.
  intros W [SU IU] N e I. split; [apply (vt_len KS us s e I)|]. destruct N as [N|N]; [left; exact N|right]. unfold vt in I. apply in_map_iff in I as ([k c] & <- & I). cbn [fst].
  rewrite degree_spread; [eapply N; eauto|apply sorted_set_nodup, (wf_ss _ _ _ _ W)|apply sorted_set_nodup; exact SU|exact IU|apply (kl_len _ _ KL); eapply wf_valid; eauto].
Qed.
(** A series whose coefficients are, up to the truncation, those of a list without negative degrees, and which respects its truncation (or all the coefficients are those of the list). *)
Lemma psum_nonzero Q (l : list vterm) : psum CO Q l <> 0c -> exists e, In e l /\ Q (fst e) = true.
Proof.
  induction l as [|e l IH]; intros H; [elim H; reflexivity|]. rewrite (psum_cons CO CL) in H. destruct (Q (fst e)) eqn:EQ; [exists e; split; [left; reflexivity|exact EQ]|].
  destruct IH as (e' & J & X); [intros Z; apply H; rewrite Z; cbn [ifP]; ring|]. exists e'. split; [right; exact J|exact X].
Qed.
Lemma nn_coef (s : series) L : WF s -> covers us s -> nn L -> (forall k c, In (k, c) (terms s) -> psum CO (fun v => vec_eqb v (spread (s_ss s) us (exps s k))) L <> 0c) -> nn (vt us s).
Proof.
  intros W CV N H e I. split; [apply (vt_len KS us s e I)|]. unfold vt in I. apply in_map_iff in I as ([k c] & <- & I). cbn [fst]. specialize (H k c I). apply psum_nonzero in H as (e & J & Q). apply vec_eqb_iff in Q. rewrite <- Q. apply N. exact J.
Qed.

(** ** The operations *)
Variables (E : mul_env K C trunc_t) (B : symbol_set) (sm : symbol_map series) (vpow : series -> Z -> res series).
Hypothesis (EO : env_ok KO KS E) (TK : trunc_ok tD t) (HB : sorted_set B) (SZ : Z.of_nat (len B + len B) <= imax size_t) (SF : t <> no_truncation -> forall u, sums_fit KS tD (counted t) u).
Hypothesis (HU : sorted_set us) (IU : incl B us).
Definition tagged (s : series) : Prop := s_tag s = no_truncation \/ s_tag s = t.
(** p is, up to the truncation, the formal sum L. *)
Definition means (p : series) (L : list vterm) : Prop :=
  WF p /\ incl (s_ss p) B /\ tagged p /\ nn (vt us p) /\ nn L /\ upto (vt us p) L.
Definition subs_exn (e : exn) : Prop := e = overflow_error \/ e = safe_cast_failure \/ exists z u n, In (z, u) sm /\ vpow u n = Throw e.

Lemma in_B (s : series) : incl (s_ss s) B -> covers us s.
Proof. intros I. split; [exact HU|]. eapply incl_tran; eauto. Qed.
Lemma sub_len' (s : series) : WF s -> incl (s_ss s) B -> (len (s_ss s) <= len B)%nat.
Proof. intros W I. apply NoDup_incl_length; auto. apply sorted_set_nodup, (wf_ss _ _ _ _ W). Qed.
Lemma tagged_ok (s : series) : tagged s -> trunc_ok tD (s_tag s).
Proof. intros [->| ->]; [exact Logic.I|exact TK]. Qed.
Lemma tagged_joint (a b : series) : tagged a -> tagged b -> exists t', joint (s_tag a) (s_tag b) t' /\ (t' = no_truncation \/ t' = t) /\ (s_tag a = t \/ s_tag b = t -> t' = t).
Proof.
  intros [A|A] [D|D]; rewrite A, D.
  - exists no_truncation. split; [left; auto|]. split; [left; reflexivity|tauto].
  - exists t. split; [right; left; auto|]. split; [right; reflexivity|reflexivity].
  - exists t. split; [right; right; auto|]. split; [right; reflexivity|reflexivity].
  - exists t. split; [left; auto|]. split; [right; reflexivity|reflexivity].
Qed.
Lemma psum_coef (s : series) ws : psum CO (fun v => vec_eqb v ws) (vt us s) = coef us s ws.
Proof. rewrite vt_psum, <- coef_nden. reflexivity. Qed.

Lemma means_mul (a b : series) La Lb : means a La -> means b Lb ->
  (exists r, ps_mul KO CO PO E tD a b = Ok r /\ means r (vprod CO La Lb) /\ respects KS r /\ (s_tag a = t \/ s_tag b = t -> s_tag r = t)) \/
  (exists e, ps_mul KO CO PO E tD a b = Throw e /\ subs_exn e).
Proof.
  intros (Wa & Ia & Ta & Na & NLa & Ua) (Wb & Ib & Tb & Nb & NLb & Ub). destruct (tagged_joint a b Ta Tb) as (t' & J & T' & TT).
  assert (SZ' : Z.of_nat (len (s_ss a) + len (s_ss b)) <= imax size_t) by (pose proof (sub_len' a Wa Ia); pose proof (sub_len' b Wb Ib); lia).
  destruct (ps_mul_exact KO KS CO PO tD KL CL HT HP E a b EO Wa Wb (tagged_ok a Ta) (tagged_ok b Tb) SZ') as [_ M]. cbv zeta in M.
  destruct (M t' J) as (u & [SU UU] & [(r & ER & Wr & SR & TR & _ & RR & CR)|[KE _]]).
  - intros u _ NT. destruct T' as [->| ->]; [congruence|auto].
  - left. exists r. split; [exact ER|]. assert (Iu : incl u B) by (intros z Iz; apply UU in Iz as [Iz|Iz]; auto). assert (Ir : incl (s_ss r) B) by (rewrite SR; exact Iu). pose proof (in_B r Ir) as CV.
    assert (PV : forall ws, prod_coef KS CO us a b ws = psum CO (fun v => vec_eqb v ws) (vprod CO (vt us a) (vt us b))) by (intros ws; rewrite psum_vprod; symmetry; apply bil_prod_coef).
    split; [|split; [exact RR|intros X; rewrite TR; auto]]. split; [exact Wr|]. split; [exact Ir|]. split; [rewrite <- TR in T'; exact T'|]. split; [|split; [apply nn_prod; auto|]].
    + apply (nn_coef r (vprod CO (vt us a) (vt us b)) Wr CV (nn_prod _ _ Na Nb)). intros k c I. rewrite <- PV. pose proof (wf_nonzero _ _ _ _ Wr k c I) as NZ. rewrite <- (coef_term KO KS CO KL CL us r k c Wr CV I) in NZ.
      rewrite CR in NZ by (auto; eapply incl_tran; eauto). destruct (within t' us _); [exact NZ|congruence].
    + intros ws L WI. rewrite psum_coef, CR by (auto; eapply incl_tran; eauto). assert (W' : within t' us ws = true) by (destruct T' as [->| ->]; [reflexivity|exact WI]). rewrite W', PV. apply upto_prod; auto.
  - right. destruct KE as [KE|KE]; rewrite KE; eexists; (split; [reflexivity|]); [left|right; left]; reflexivity.
Qed.
Lemma means_scalar (a : series) L c : means a L -> means (series_scalar_mul KO CO a c) (map (fun e => (fst e, snd e *c c)) L) /\ s_tag (series_scalar_mul KO CO a c) = s_tag a.
Proof.
  intros (Wa & Ia & Ta & Na & NL & U). destruct (scalar_mul_ok KO KS CO KL CL a c Wa) as (Wp & Sp & Tp & _). split; [|exact Tp]. set (p := series_scalar_mul KO CO a c) in *. assert (Ip : incl (s_ss p) B) by (rewrite Sp; exact Ia).
  assert (NM : forall l, nn l -> nn (map (fun e : vterm => (fst e, snd e *c c)) l)) by (intros l H e I; apply in_map_iff in I as (e' & <- & I); cbn [fst]; apply H; exact I).
  assert (PM : forall Q l, psum CO Q (map (fun e : vterm => (fst e, snd e *c c)) l) = psum CO Q l *c c) by (intros Q l; apply (SeriesProofs.psum_map CO CL Q (fun v => v) (fun c0 => c0 *c c) CO l); intros; ring).
  split; [exact Wp|]. split; [exact Ip|]. split; [unfold tagged; rewrite Tp; exact Ta|]. split; [|split; [apply NM; exact NL|]].
  - apply (nn_coef p (vt us a) Wp (in_B p Ip) Na). intros k c0 I X. apply (wf_nonzero _ _ _ _ Wp k c0 I). rewrite <- (coef_term KO KS CO KL CL us p k c0 Wp (in_B p Ip) I), <- psum_coef. unfold p. rewrite (scalar_vt KO KS CO KL CL a c us Wa), PM. fold p. rewrite X. ring.
  - intros ws L0 WI. unfold p. rewrite (scalar_vt KO KS CO KL CL a c us Wa), !PM, (U ws L0 WI). reflexivity.
Qed.
Lemma means_add (r p : series) Lr Lp : means r Lr -> means p Lp -> respects KS r -> respects KS p ->
  (exists r', ps_in_place_addsub KO CO PO tD true r false p = Ok r' /\ means r' (Lr ++ Lp) /\ respects KS r' /\ (s_tag r = t \/ s_tag p = t -> s_tag r' = t)) \/
  (exists e, ps_in_place_addsub KO CO PO tD true r false p = Throw e /\ subs_exn e).
Proof.
  intros (Wa & Ia & Ta & Na & NLa & Ua) (Wb & Ib & Tb & Nb & NLb & Ub) RA RB. destruct (tagged_joint r p Ta Tb) as (t' & J & T' & TT).
  assert (SZ' : Z.of_nat (len (s_ss r) + len (s_ss p)) <= imax size_t) by (pose proof (sub_len' r Wa Ia); pose proof (sub_len' p Wb Ib); lia).
  destruct (ps_add_sub_exact KO KS CO PO tD KL CL HT DI true true false r p Wa Wb (tagged_ok r Ta) (tagged_ok p Tb) ltac:(discriminate) SZ') as [_ M]. cbv zeta in M. cbn iota in M.
  destruct (M t' J) as [(s & ES & Ws & TS & [SU UU] & H)|[KE _]].
  - left. destruct (H RA RB) as [RS CS]. exists s. split; [exact ES|]. assert (Is : incl (s_ss s) B) by (intros z Iz; apply UU in Iz as [Iz|Iz]; auto). pose proof (in_B s Is) as CV.
    assert (NA : forall a b, nn a -> nn b -> nn (a ++ b)) by (intros a b A D e I; apply in_app_iff in I as [I|I]; auto).
    split; [|split; [exact RS|intros X; rewrite TS; auto]]. split; [exact Ws|]. split; [exact Is|]. split; [rewrite <- TS in T'; exact T'|]. split; [|split; [apply NA; auto|]].
    + apply (nn_coef s (vt us r ++ vt us p) Ws CV (NA _ _ Na Nb)). intros k c I. pose proof (wf_nonzero _ _ _ _ Ws k c I) as NZ. rewrite <- (coef_term KO KS CO KL CL us s k c Ws CV I) in NZ. rewrite CS in NZ by exact CV. rewrite (psum_app CO CL), !psum_coef. destruct (within t' us _); [exact NZ|congruence].
    + intros ws L WI. rewrite psum_coef, CS by exact CV. assert (W' : within t' us ws = true) by (destruct T' as [->| ->]; [reflexivity|exact WI]). rewrite W', (psum_app CO CL), <- !psum_coef, (Ua ws L WI), (Ub ws L WI). reflexivity.
  - right. destruct KE as [KE|KE]; rewrite KE; eexists; (split; [reflexivity|]); [left|right; left]; reflexivity.
Qed.

(** ** The loop *)
Lemma means_same (p : series) L L' : means p L -> same CO L L' -> nn L' -> means p L'.
Proof. intros (W & I & T & N & _ & U) S N'. split; [exact W|]. split; [exact I|]. split; [exact T|]. split; [exact N|]. split; [exact N'|]. intros ws L0 WI. rewrite (U ws L0 WI). apply S. Qed.
Lemma vprod_single (a : list vterm) v c : vprod CO a [(v, c)] = map (fun e => (vadd (fst e) v, snd e *c c)) a.
Proof. induction a as [|e a IH]; [reflexivity|]. rewrite vprod_cons, IH. reflexivity. Qed.
Lemma vadd_zeros v : vadd v (repeat 0 (len v)) = v.
Proof. unfold vadd. induction v as [|a v IH]; [reflexivity|]. cbn [List.length repeat combine map fst snd]. rewrite IH, Z.add_0_r. reflexivity. Qed.
Lemma vprod_unit (a : list vterm) : (forall e, In e a -> len (fst e) = len us) -> vprod CO a (f_one CO (len us)) = a.
Proof.
  intros H. unfold f_one. rewrite vprod_single. rewrite <- (map_id a) at 2. apply map_ext_in. intros [v c] I. specialize (H _ I). cbn [fst snd] in *. rewrite <- H, vadd_zeros. f_equal. ring.
Qed.
Notation powers es ss' ss := (fold_right (fun z acc => match assoc sm z with Some u => f_mul CO (f_pow CO (len us) (f_of KS us u) (Z.to_nat (expo ss es z))) acc | None => acc end) (f_one CO (len us)) ss').
Lemma fold_picked ss es : NoDup ss -> len es = len ss -> forall ss' pre acc, ss = pre ++ ss' -> (forall e, In e acc -> len (fst e) = len us) ->
  fold_left (vprod CO) (map (fun a => powl KS CO us (snd a) (Z.to_nat (nth (fst a) es 0))) (picked sm ss' (len pre))) acc = vprod CO acc (powers es ss' ss).
Proof.
  intros ND L. induction ss' as [|z ss' IH]; intros pre acc EQ LA; cbn [picked fold_right].
  - cbn [map fold_left]. symmetry. apply vprod_unit. exact LA.
  - assert (EQ' : ss = (pre ++ [z]) ++ ss') by (rewrite <- app_assoc; exact EQ). assert (LP : len (pre ++ [z]) = S (len pre)) by (rewrite app_length; cbn; lia).
    destruct (assoc sm z) as [u|]; [|rewrite <- LP; apply IH; auto]. cbn [map fold_left fst snd]. rewrite <- LP.
    assert (EX : nth (len pre) es 0 = expo ss es z).
    { symmetry. apply (expo_nth ss es (len pre) z); [exact ND| |apply nth_error_nth'; rewrite L, EQ, app_length; cbn [List.length]; lia]. rewrite EQ. rewrite nth_error_app2 by lia. rewrite Nat.sub_diag. reflexivity. }
    rewrite EX, IH; [|exact EQ'|intros e I; apply (vprod_len CO (len us) acc _ LA (powl_len KS CO us u _) e I)]. rewrite (vprod_assoc CO CL), <- f_pow_powl. reflexivity.
Qed.

Hypothesis (Sm : sorted_set (map fst sm)).
Hypothesis (VU : forall z u, In (z, u) sm -> WF u /\ incl (s_ss u) B /\ no_negative KS t u).
Hypothesis (VP : forall z u n, In (z, u) sm ->
  (exists p, vpow u (Z.of_nat n) = Ok p /\ WF p /\ incl (s_ss p) B /\ tagged p /\ no_negative KS t p /\ forall ws, len ws = len us -> within t us ws = true -> coef us p ws = power_coef KS CO us u n ws) \/
  (exists e, vpow u (Z.of_nat n) = Throw e)).
Notation vmul := (fun a b : res series => a <- a ;; b <- b ;; ps_mul KO CO PO E tD a b).

Lemma means_power z u n : In (z, u) sm -> (exists p, vpow u (Z.of_nat n) = Ok p /\ means p (powl KS CO us u n)) \/ (exists e, vpow u (Z.of_nat n) = Throw e /\ subs_exn e).
Proof.
  intros J. destruct (VU z u J) as (Wu & Iu & Nu). destruct (VP z u n J) as [(p & EP & Wp & Ip & Tp & Np & Cp)|(e & EP)]; [left|right; exists e; split; [exact EP|right; right; eauto]].
  exists p. split; [exact EP|]. split; [exact Wp|]. split; [exact Ip|]. split; [exact Tp|]. split; [apply nn_vt; auto using in_B|]. split; [apply nn_powl, nn_vt; auto using in_B|].
  intros ws L WI. rewrite psum_coef, (Cp ws L WI). symmetry. apply (powl_coef KS CO CL). exact L.
Qed.
Lemma fold_throw (l : list (res series)) e : fold_left vmul l (Throw e) = Throw e.
Proof. induction l as [|a l IH]; [reflexivity|]. cbn [fold_left bind]. exact IH. Qed.
Lemma fold_powers (l : list (nat * series)) es : (forall i u, In (i, u) l -> exists z, In (z, u) sm) -> (forall i u, In (i, u) l -> 0 <= nth i es 0) -> forall a La, means a La ->
  (exists p, fold_left vmul (map (fun a => vpow (snd a) (nth (fst a) es 0)) l) (Ok a) = Ok p /\ means p (fold_left (vprod CO) (map (fun a => powl KS CO us (snd a) (Z.to_nat (nth (fst a) es 0))) l) La)) \/
  (exists e, fold_left vmul (map (fun a => vpow (snd a) (nth (fst a) es 0)) l) (Ok a) = Throw e /\ subs_exn e).
Proof.
  induction l as [|[i u] l IH]; intros IL NN a La H; [left; exists a; split; [reflexivity|exact H]|]. cbn [map fold_left fst snd].
  destruct (IL i u (or_introl eq_refl)) as (z & J). pose proof (NN i u (or_introl eq_refl)) as N0. replace (vpow u (nth i es 0)) with (vpow u (Z.of_nat (Z.to_nat (nth i es 0)))) by (rewrite Z2Nat.id by exact N0; reflexivity).
  destruct (means_power z u (Z.to_nat (nth i es 0)) J) as [(p & EP & MP)|(e & EP & X)]; rewrite EP; cbn [bind].
  - destruct (means_mul a p La _ H MP) as [(r & ER & MR & _)|(e & ER & X)]; rewrite ER; cbn [bind].
    + apply IH; [intros; eapply IL; right; eauto|intros; eapply NN; right; eauto|exact MR].
    + right. exists e. split; [apply fold_throw|exact X].
  - right. exists e. split; [apply fold_throw|exact X].
Qed.
Lemma means_one : exists o, series_of_cf KO CO PO ps_tag_ops (c_one CO) [] = Ok o /\ means o (f_one CO (len us)).
Proof.
  destruct (of_cf_ok KO KS CO PO ps_tag_ops KL CL (c_one CO) [] ltac:(constructor) FN) as (o & EO' & Wo & So & To & _ & T). exists o. split; [exact EO'|]. assert (Io : incl (s_ss o) B) by (rewrite So; intros ? []).
  assert (N1 : nn (f_one CO (len us))). { intros e [<-|[]]. cbn [fst]. split; [apply repeat_length|]. right. apply degree_nonneg. apply Forall_forall. intros y J. apply repeat_spec in J. lia. }
  assert (VT : same CO (vt us o) (f_one CO (len us))).
  { intros Q. unfold SeriesEval.vt. rewrite T, So. destruct (c_is_zero CO (c_one CO)) eqn:EZ.
    - apply (cl_zero _ CL) in EZ. unfold f_one. rewrite (psum_cons CO CL). cbn [map fst snd]. rewrite EZ. rewrite !psum_nil. destruct (Q _); cbn [ifP]; ring.
    - unfold f_one. cbn [map]. rewrite !(psum_cons CO CL), !psum_nil. cbn [fst snd]. replace (spread [] us (ks_exps KS (len (@nil string)) (k_of_ss KO []))) with (repeat 0 (len us)); [reflexivity|].
      destruct (kl_unit _ _ KL [] FN) as [_ XU]. rewrite XU. symmetry. apply (P_Rec6.spread_zeros [] us). }
  split; [exact Wo|]. split; [exact Io|]. split; [left; exact To|]. split; [|split; [exact N1|intros ws _ _; apply VT]].
  apply (nn_coef o (f_one CO (len us)) Wo (in_B o Io) N1). intros k c I. rewrite <- VT, psum_coef, (coef_term KO KS CO KL CL us o k c Wo (in_B o Io) I). apply (wf_nonzero _ _ _ _ Wo k c I).
Qed.
Lemma in_sm z u : assoc sm z = Some u -> In (z, u) sm.
Proof. intros A. apply assoc_iff; auto. apply sorted_set_nodup; exact Sm. Qed.
Lemma nn_one : nn (f_one CO (len us)).
Proof. intros e [<-|[]]. cbn [fst]. split; [apply repeat_length|]. right. apply degree_nonneg. apply Forall_forall. intros y J. apply repeat_spec in J. lia. Qed.
Lemma nn_powers es ss ss' : nn (powers es ss' ss).
Proof.
  induction ss' as [|z ss' IH]; cbn [fold_right]; [apply nn_one|]. destruct (assoc sm z) as [u|] eqn:A; [|exact IH]. rewrite f_mul_vprod, f_pow_powl. apply nn_prod; [|exact IH].
  destruct (VU z u (in_sm z u A)) as (Wu & Iu & Nu). apply nn_powl, nn_vt; auto using in_B.
Qed.
Lemma vprod_scale (a : list vterm) v c : same CO (vprod CO (map (fun e => (fst e, snd e *c c)) a) [(v, c_one CO)]) (vprod CO a [(v, c)]).
Proof.
  intros Q. rewrite !vprod_single, map_map. induction a as [|e a IH]; [reflexivity|]. cbn [map]. rewrite !(psum_cons CO CL), IH. cbn [fst snd]. destruct (Q _); cbn [ifP]; ring.
Qed.
Lemma ps_subs_ok (x : series) : WF x -> incl (s_ss x) B -> tagged x -> (forall k c, In (k, c) (terms x) -> Forall (Z.le 0) (exps x k)) ->
  (exists r, ps_subs KO CO PO E tD vpow x sm = Ok r /\ means r (f_subst KS CO us sm x) /\ respects KS r /\ (s_tag x = t -> terms x <> [] -> s_tag r = t)) \/
  (exists e, ps_subs KO CO PO E tD vpow x sm = Throw e /\ subs_exn e).
Proof.
  intros W IX TX NX. assert (Hs := wf_ss _ _ _ _ W). unfold ps_subs. unfold set_symbol_set. change (series_empty (series_default ps_tag_ops)) with true. cbn iota. cbn [bind].
  change (set_tag _ (s_tag x)) with (blank x). cbv zeta.
  match goal with |- context [rfold ?f _ _] => set (step := f) end.
  destruct (rfold_inv step (fun done r => means r (List.concat (map (f_term KS CO us sm x) done)) /\ respects KS r /\ (s_tag x = t -> done <> [] -> s_tag r = t)) (fun q => exists e, q = Throw e /\ subs_exn e))
    with (l := terms x) (pre := @nil (K * C)) (b := series_default ps_tag_ops : series) as [(r & ER & H)|H].
  - intros b (e & X & _). discriminate X.
  - split; [|split; [intros k c []|intros _ X; elim X; reflexivity]]. split; [apply default_wf|]. split; [intros ? []|]. split; [left; reflexivity|]. split; [intros e []|]. split; [intros e []|]. intros ws _ _. reflexivity.
  - cbn [app]. intros p r [k c] q EQ (Mr & Rr & Tr). assert (I : In (k, c) (terms x)) by (rewrite EQ; apply in_or_app; right; left; reflexivity).
    pose proof (wf_valid _ _ _ _ W k c I) as Vk. assert (LE : len (exps x k) = len (s_ss x)) by (apply (kl_len _ _ KL); exact Vk).
    unfold step. cbn [fst snd].
    destruct (kl_subs _ _ KL (res series) series (series_of_cf KO CO PO ps_tag_ops (c_one CO) []) vmul (fun u z => Ok (vpow u z)) vpow k (s_ss x) (sm_intersect_idx sm (s_ss x)) Vk (idx_sorted sm (s_ss x) Sm Hs) (idx_bound sm (s_ss x) Sm Hs)) as (k' & EK & V' & X').
    { reflexivity. }
    rewrite EK. cbn [bind]. destruct means_one as (o & EO' & Mo). rewrite EO'. rewrite (idx_zero sm (s_ss x) Sm Hs _ LE) in X'.
    destruct (tmp_ok KO KS CO PO KL CL x k' W V') as (tm & ET & Wt & ST & _ & VT). pose proof (P_PS7.tmp_tag KO KS CO PO KL CL x tm k' W V' ET) as TT. rewrite ET. cbn [bind].
    set (es := keep sm (s_ss x) (exps x k)) in *. rewrite X' in VT.
    assert (Pos : Forall (Z.le 0) es). { unfold es, keep. apply Forall_forall. intros y J. apply in_map_iff in J as (z & <- & _). destruct (assoc sm z); [lia|]. apply (expo_in (Z.le 0)); [lia|]. exact (NX k c I). }
    assert (NK : forall c', nn [(spread (s_ss x) us es, c')]).
    { intros c' e [<-|[]]. cbn [fst]. split; [apply spread_len|]. right. apply degree_nonneg. unfold spread. apply Forall_forall. intros y J. apply in_map_iff in J as (z & <- & _). apply (expo_in (Z.le 0)); [lia|exact Pos]. }
    assert (Mt : means tm [(spread (s_ss x) us es, c_one CO)]).
    { assert (It : incl (s_ss tm) B) by (rewrite ST; exact IX). split; [exact Wt|]. split; [exact It|]. split; [unfold tagged; rewrite TT; exact TX|]. split; [|split; [apply NK|intros ws _ _; apply VT]].
      apply (nn_coef tm _ Wt (in_B tm It) (NK (c_one CO))). intros k0 c0 J. rewrite <- VT, psum_coef, (coef_term KO KS CO KL CL us tm k0 c0 Wt (in_B tm It) J). apply (wf_nonzero _ _ _ _ Wt k0 c0 J). }
    destruct (fold_powers (sm_intersect_idx sm (s_ss x)) (exps x k)) with (a := o) (La := f_one CO (len us)) as [(pv & EP & Mp)|(e & EP & X)].
    + intros i u J. apply (idx_iff sm (s_ss x) Sm Hs) in J as (n & _ & A). exists n. apply in_sm; exact A.
    + intros i u _. destruct (Nat.lt_ge_cases i (len (exps x k))) as [L|L]; [|rewrite nth_overflow by lia; lia]. exact (proj1 (Forall_forall _ _) (NX k c I) _ (nth_In _ 0 L)).
    + exact Mo.
    + rewrite EP. cbn [bind].
      assert (Mp' : means pv (powers (exps x k) (s_ss x) (s_ss x))).
      { apply (means_same pv _ _ Mp); [|apply nn_powers]. rewrite (idx_picked sm (s_ss x) Sm Hs). pose proof (fold_picked (s_ss x) (exps x k) (sorted_set_nodup _ Hs) LE (s_ss x) [] (f_one CO (len us)) eq_refl (fun e J => proj1 (nn_one e J))) as FP. change (len (@nil string)) with O in FP. rewrite FP.
        intros Q. rewrite (same_swap CO CL). rewrite vprod_unit by (intros e J; apply (nn_powers _ _ _ e J)). reflexivity. }
      destruct (means_scalar pv _ c Mp') as [Mc _].
      destruct (means_mul _ tm _ _ Mc Mt) as [(pt & EM & Mm & Rm & Tm)|(e & EM & X)].
      * rewrite EM. cbn [bind]. assert (Mm' : means pt (f_term KS CO us sm x (k, c))).
        { apply (means_same pt _ _ Mm); [intros Q; apply vprod_scale|]. unfold f_term. cbn [fst snd]. rewrite f_mul_vprod. apply nn_prod; [apply nn_powers|apply NK]. }
        destruct (means_add r pt _ _ Mr Mm' Rr Rm) as [(r' & E' & Mr' & Rr' & Tr')|(e & E' & X)].
        -- left. exists r'. split; [exact E'|]. split; [|split; [exact Rr'|]].
           ++ rewrite map_app, concat_app. cbn [map List.concat]. rewrite List.app_nil_r. exact Mr'.
           ++ intros X _. apply Tr'. right. apply Tm. right. rewrite TT. exact X.
        -- right. rewrite E'. eauto.
      * right. rewrite EM. cbn [bind]. eauto.
    + right. rewrite EP. cbn [bind]. eauto.
  - left. exists r. split; [exact ER|exact H].
  - right. exact H.
Qed.
End PU.
