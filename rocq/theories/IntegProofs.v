(** Integration of polynomials. *)
From Coq Require Import ZArith List Bool String Arith Sorted Permutation Lia Ring Ring_theory.
From Verif Require Import Base IntModel SymModel SymSpec SymProofs P_Sym PMonSpec KeyOps
  SeriesModel SeriesModel2 SeriesSpec SeriesProofs SeriesProofs2 SeriesProofs3 SeriesProofs4 SeriesProofs5 SeriesProofs6 Lin EvalSpec SeriesEval SeriesProofs7 P_Series P_Series2
  PolyModel PolyModel2 PolySpec PolyProofs7 PolyProofs8 PolyProofs9 P_Poly CalcSpec PowProofs2 DiffProofs.
Import ListNotations.
Open Scope Z_scope.
Open Scope res_scope.
Local Notation len := List.length.

(** The insertion of one symbol. *)
Lemma insert_one (s : string) : forall (l : list string) k i, (k <= len l)%nat -> insert_all (ins_at [((i + k)%nat, [s])]) i l = firstn k l ++ s :: skipn k l.
Proof.
  unfold ins_at. induction l as [|x l IH]; intros k i L.
  - destruct k; [|cbn in L; lia]. cbn. rewrite Nat.add_0_r, Nat.eqb_refl. reflexivity.
  - cbn [insert_all find fst]. destruct k as [|k].
    + rewrite Nat.add_0_r, Nat.eqb_refl. cbn [firstn skipn app snd]. f_equal. f_equal.
      assert (X : forall (q : list string) j, (i < j)%nat -> insert_all (fun i0 => match find (fun p : nat * list string => Nat.eqb (fst p) i0) [(i, [s])] with Some p => snd p | None => [] end) j q = q).
      { clear. induction q as [|y q IH]; intros j H; cbn [insert_all find fst]; assert ((i =? j)%nat = false) as -> by (apply Nat.eqb_neq; lia); cbn [app]; [reflexivity|]. f_equal. apply IH. lia. }
      apply X. lia.
    + assert ((i + S k =? i)%nat = false) as -> by (apply Nat.eqb_neq; lia). cbn [firstn skipn app]. f_equal. rewrite <- (IH k (S i)) by (cbn in L; lia). rewrite <- Nat.add_succ_comm. reflexivity.
Qed.
Lemma sorted_insert (l : symbol_set) s k r : sorted_set l -> lower_bound l s = (k, r) -> (match r with y :: _ => y <> s | [] => True end) -> sorted_set (firstn k l ++ s :: r).
Proof.
  intros S E N. destruct (lower_bound_spec l s k r E) as (A & B & _ & D & F). subst r. rewrite A in S.
  assert (SR : sorted_set (skipn k l) /\ sorted_set (firstn k l) /\ forall x y, In x (firstn k l) -> In y (skipn k l) -> slt x y).
  { clear -S. revert S. generalize (firstn k l), (skipn k l). intros a b. induction a as [|x a IH]; intros S; [split; [exact S|]; split; [constructor|intros ? ? []]|]. inversion_clear S as [|? ? S' F]. destruct (IH S') as (H1 & H2 & H3). rewrite Forall_app in F. destruct F as [F1 F2].
    split; [exact H1|]. split; [constructor; auto|]. intros u v [->|I] J; [rewrite Forall_forall in F2; apply F2; exact J|auto]. }
  destruct SR as (S1 & S2 & S3).
  assert (GT : Forall (slt s) (skipn k l)). 
  { destruct (skipn k l) as [|y q] eqn:EQ; [constructor|]. assert (SY : slt s y).
    { unfold slt in *. rewrite String.compare_antisym. destruct (String.compare y s) eqn:EC; [|elim F; reflexivity|reflexivity]. apply String.compare_eq_iff in EC. elim N. exact EC. }
    inversion_clear S1 as [|? ? _ FF]. constructor; [exact SY|]. eapply Forall_impl; [|exact FF]. intros z H. eapply slt_trans; eauto. }
  assert (S0 : sorted_set (s :: skipn k l)) by (constructor; auto). clear -S0 S2 S3 D. revert S2 S3 D. generalize (firstn k l) as a. intros a. induction a as [|x a IH]; intros S2 S3 D; [exact S0|]. cbn [app]. inversion_clear S2 as [|? ? S' F].
  constructor; [apply IH; auto; intros; [apply S3; [right|]; auto|apply D; right; auto]|]. apply Forall_app. split; [exact F|]. constructor; [apply D; left; reflexivity|]. apply Forall_forall. intros y I. apply S3; [left; reflexivity|exact I].
Qed.

Section Integ.
Context {K C Tag : Type} (KO : key_ops K) (KS : key_sem K) (CO : cf_ops C) (PO : tbl_policy (K * C)) (TO : tag_ops Tag).
Context (KL : key_laws KO KS) (CL : cf_laws CO).
Notation series := (series K C Tag).
Notation WF := (wf KO KS CO).
Notation exps s k := (ks_exps KS (List.length (s_ss s)) k).
Infix "+c" := (c_add CO) (at level 50, left associativity).
Infix "*c" := (c_mul CO) (at level 40, left associativity).
Add Ring CringI : (cl_ring _ CL).
Notation vterm := (list Z * C)%type.
Variable cdiv : C -> Z -> res C.
(** Nothing is asked of the quotient: it may be truncated. *)
Hypothesis CD : total_division cdiv.

Definition quot (c : C) (n : Z) : C := match cdiv c n with Ok q => q | _ => c_zero CO end.
Lemma quot_ok c n : n <> 0 -> cdiv c n = Ok (quot c n).
Proof. intros N. destruct (CD c n N) as (q & E). unfold quot. rewrite E. auto. Qed.
Definition iterm (us : symbol_set) (s : string) (a : vterm) : vterm := (bump us s 1 (fst a), quot (snd a) (expo us (fst a) s + 1)).

Definition integ_domain (x : series) (s : string) : Prop := exists k c, In (k, c) (terms x) /\ expo (s_ss x) (exps x k) s = -1.
(** The integral of some term is not representable over u. *)
Definition integ_unrep (u : symbol_set) (x : series) (s : string) : Prop := exists k c, In (k, c) (terms x) /\ ~ ks_fits KS (bump u s 1 (spread (s_ss x) u (exps x k))).
Notation result x s r u := (WF r /\ s_ss r = u /\ s_tag r = s_tag x /\ s_log2 r = s_log2 x /\ ~ integ_domain x s /\ ~ integ_unrep u x s /\
     (forall us ws, sorted_set us -> incl u us -> len ws = len us ->
        (expo us ws s <> -1 -> coef KS CO us r (bump us s 1 ws) = if c_is_zero CO (coef KS CO us x ws) then c_zero CO else quot (coef KS CO us x ws) (expo us ws s + 1)) /\
        (expo us ws s = 0 -> coef KS CO us r ws = c_zero CO))).

Lemma psum_none (l : list vterm) ws : ~ In ws (map fst l) -> psum CO (fun v => vec_eqb v ws) l = c_zero CO.
Proof.
  intros N. apply (psum_false CO CL). intros v c I. destruct (vec_eqb v ws) eqn:E; [|reflexivity]. apply vec_eqb_iff in E. subst. elim N. apply (in_map fst) in I. exact I.
Qed.
Lemma iterm_coef us s (l : list vterm) ws : len ws = len us -> (forall e, In e l -> len (fst e) = len us) -> NoDup (map fst l) -> (forall v c, In (v, c) l -> c <> c_zero CO) -> expo us ws s <> -1 ->
  psum CO (fun v => vec_eqb v (bump us s 1 ws)) (map (iterm us s) l) =
  if c_is_zero CO (psum CO (fun v => vec_eqb v ws) l) then c_zero CO else quot (psum CO (fun v => vec_eqb v ws) l) (expo us ws s + 1).
Proof.
  intros L H ND NZ N. assert (Z0 : c_is_zero CO (c_zero CO) = true) by (apply (cl_zero _ CL); reflexivity).
  assert (X : forall l : list vterm, (forall e, In e l -> len (fst e) = len us) -> ~ In ws (map fst l) -> psum CO (fun v => vec_eqb v (bump us s 1 ws)) (map (iterm us s) l) = c_zero CO).
  { clear l H ND NZ. intros l H NI. apply (psum_false CO CL). intros v c I. apply in_map_iff in I as ([w d] & EQ & I). apply (f_equal fst) in EQ. cbn [iterm fst] in EQ. subst v.
    rewrite vec_eqb_bump by (try (apply (H (w, d)); exact I); apply bump_len; auto). rewrite bump_add by auto. replace (1 + - (1)) with 0 by lia. rewrite bump_0 by auto.
    destruct (vec_eqb w ws) eqn:E; [|reflexivity]. apply vec_eqb_iff in E. subst. elim NI. apply (in_map fst) in I. exact I. }
  induction l as [|[v c] l IH]; [cbn; unfold psum; cbn; rewrite Z0; reflexivity|]. cbn [map] in *. inversion_clear ND as [|? ? NI ND']. rewrite !(psum_cons CO CL). cbn [iterm fst snd] in *.
  assert (LV : len v = len us) by (apply (H (v, c)); left; reflexivity). rewrite vec_eqb_bump by (auto; apply bump_len; auto). rewrite bump_add by auto. replace (1 + - (1)) with 0 by lia. rewrite bump_0 by auto.
  unfold vec_eqb at 1 3 5. destruct (list_eq_dec Z.eq_dec v ws) as [->|NE]; cbn [ifP].
  - rewrite X by (auto; intros; apply H; right; auto). rewrite (psum_none l ws NI).
    assert (E0 : forall a, a +c c_zero CO = a) by (intros; ring). rewrite !E0. destruct (c_is_zero CO c) eqn:EZ; [|reflexivity]. apply (cl_zero _ CL) in EZ. elim (NZ ws c); [left; reflexivity|exact EZ].
  - assert (E0 : forall a, c_zero CO +c a = a) by (intros; ring). rewrite !E0. apply IH; auto; [intros; apply H; right; auto|intros v0 c0 I; apply (NZ v0 c0); right; exact I].
Qed.
Lemma vt_nodup us (x : series) : WF x -> covers us x -> NoDup (map fst (vt KS us x)).
Proof.
  intros W CV. unfold vt. rewrite map_map. cbn [fst]. pose proof (wf_keys _ _ _ _ W) as ND. assert (V : forall k c, In (k, c) (terms x) -> ks_valid KS (len (s_ss x)) k) by (intros; eapply wf_valid; eauto).
  revert ND V. induction (terms x) as [|[k c] l IH]; intros ND V; [constructor|]. cbn [map fst] in *. inversion_clear ND as [|? ? NI ND']. constructor; [|apply IH; auto; intros; eapply V; right; eauto].
  intros I. apply in_map_iff in I as ([k' c'] & EQ & I). apply NI. cbn [fst] in EQ. apply (spread_exps_inj KO KS CO KL us x k' k W CV) in EQ; [subst k'; apply (in_map fst) in I; exact I|eapply V; right; eauto|eapply V; left; reflexivity].
Qed.
Lemma iterm_zero us s (l : list vterm) ws : In s us -> len ws = len us -> (forall e, In e l -> len (fst e) = len us /\ expo us (fst e) s <> -1) -> expo us ws s = 0 ->
  psum CO (fun v => vec_eqb v ws) (map (iterm us s) l) = c_zero CO.
Proof.
  intros IS L H Z. induction l as [|[v c] l IH]; [reflexivity|]. cbn [map]. rewrite (psum_cons CO CL), IH by (intros; apply H; right; auto). cbn [iterm fst snd]. destruct (H (v, c) (or_introl eq_refl)) as [LV N]. cbn [fst] in *.
  unfold vec_eqb. destruct (list_eq_dec _ _ _) as [E|E]; cbn [ifP]; [|ring]. exfalso. apply N. rewrite <- E, expo_bump in Z by exact LV. rewrite String.eqb_refl in Z. destruct (in_dec string_dec s us); [lia|contradiction].
Qed.

Lemma integ_at (x : series) s idx : WF x -> nth_error (s_ss x) idx = Some s ->
  (exists r, poly_integrate_at KO CO PO TO cdiv x idx = Ok r /\ result x s r (s_ss x)) \/
  (poly_integrate_at KO CO PO TO cdiv x idx = Throw domain_error /\ integ_domain x s) \/
  (poly_integrate_at KO CO PO TO cdiv x idx = Throw overflow_error /\ (integ_unrep (s_ss x) x s \/ full (s_log2 x) (len (terms x)))).
Proof.
  intros W EI. unfold poly_integrate_at. destruct (start_ok KO KS CO TO x W) as [ES FS]. cbv zeta.
  match goal with |- context [rfold ?f _ _] => set (step := f) end.
  assert (X : (retval <- set_symbol_set (series_default TO : series) (s_ss x) ;; retval0 <- set_n_segments (set_tag retval (s_tag x)) (get_s_size x) ;; rfold step (terms x) retval0) =
     (retval <- (retval <- set_symbol_set (series_default TO : series) (s_ss x) ;; set_n_segments (set_tag retval (s_tag x)) (get_s_size x)) ;; rfold step (terms x) retval)).
  { destruct (set_symbol_set (series_default TO : series) (s_ss x)); reflexivity. }
  rewrite X, ES. cbn [bind]. clear X ES. set (r0 := Series (repeat [] (2 ^ s_log2 x)) (s_log2 x) (s_tag x) (s_ss x) : series) in *.
  assert (NDs : NoDup (s_ss x)) by (apply sorted_set_nodup, (wf_ss _ _ _ _ W)). assert (LI : (idx < len (s_ss x))%nat) by (apply nth_error_Some; congruence).
  set (Bad := fun q : res series => q = Throw domain_error /\ integ_domain x s \/ q = Throw overflow_error /\ (integ_unrep (s_ss x) x s \/ full (s_log2 x) (len (terms x)))).
  destruct (rfold_inv step (fun done r => filled KO KS CO x r (fun us a => [iterm us s a]) 1 done /\ forall k c, In (k, c) done -> expo (s_ss x) (exps x k) s <> -1 /\ ks_fits KS (bump (s_ss x) s 1 (exps x k))) Bad) with (l := terms x) (pre := @nil (K * C)) (b := r0) as [(r & E & (Wr & (M1 & M2 & M3) & SM & _) & ND)|HB].
  - intros b [[X _]|[X _]]; discriminate.
  - split; [apply FS|intros ? ? []].
  - cbn [app]. intros p r [k c] q EQ [(Wr & M & SM & NL) HP]. assert (I : In (k, c) (terms x)) by (rewrite EQ; apply in_or_app; right; left; reflexivity).
    assert (LT : (S (len p) <= len (terms x))%nat) by (rewrite EQ, app_length; cbn; lia).
    pose proof (wf_valid _ _ _ _ W k c I) as V. unfold step. cbn [fst snd].
    assert (LE : len (exps x k) = len (s_ss x)) by (apply (kl_len _ _ KL); exact V).
    destruct (kl_integrate _ _ KL k (s_ss x) idx V LI) as (D0 & D1 & D2).
    assert (EX : nth idx (exps x k) 0 = expo (s_ss x) (exps x k) s) by (symmetry; eapply expo_nth; eauto; apply nth_error_nth'; rewrite LE; exact LI).
    assert (SA : set_at idx (nth idx (exps x k) 0 + 1) (exps x k) = bump (s_ss x) s 1 (exps x k)).
    { pose proof (spread_set_at (s_ss x) (s_ss x) idx 1 (exps x k) s NDs LE EI) as H. rewrite !spread_self in H; auto. unfold set_at. rewrite app_length, firstn_length. cbn [List.length]. rewrite skipn_length. lia. }
    rewrite SA, EX in *. destruct (Z.eq_dec (expo (s_ss x) (exps x k) s) (-1)) as [Z1|N1].
    + right. rewrite (D0 Z1). left. split; [reflexivity|]. exists k, c. auto.
    + destruct (kl_fits_dec _ _ KL (bump (s_ss x) s 1 (exps x k))) as [F|F].
      * destruct (D1 N1 F) as (k' & EK & V' & EX'). rewrite EK. cbn [bind]. rewrite (quot_ok c (expo (s_ss x) (exps x k) s + 1) ltac:(lia)). cbn [bind].
        destruct (add_ok KO KS CO PO KL CL x r k' (quot c (expo (s_ss x) (exps x k) s + 1)) W Wr M V') as [(r2 & E2 & W2 & M2 & S2 & L2)|[E2 F2]].
        -- left. exists r2. split; [exact E2|]. split; [|intros k0 c0 J; apply in_app_or in J as [J|[[= <- <-]|[]]]; [eauto|auto]]. split; [exact W2|]. split; [exact M2|]. split; [|rewrite app_length; cbn [List.length]; lia].
           intros us CV. rewrite !map_app, concat_app. cbn [map List.concat app fst snd]. eapply same_trans; [apply S2|]. apply (same_app CO CL); [apply SM; exact CV|]. unfold iterm. cbn [fst snd].
           rewrite expo_spread' by (try apply CV; apply sorted_set_nodup, CV). rewrite EX', <- SA, <- EX, (spread_set_at (s_ss x) us _ 1 _ s NDs LE EI). apply same_refl.
        -- right. rewrite E2. right. split; [reflexivity|]. right. destruct F2 as [F2 F3]. split; [exact F2|]. eapply Z.le_trans; [exact F3|]. apply Nat2Z.inj_le. lia.
      * rewrite (D2 N1 F). right. right. split; [reflexivity|]. left. exists k, c. split; [exact I|]. rewrite spread_self; auto.
  - left. exists r. split; [exact E|]. split; [exact Wr|]. split; [exact M1|]. split; [exact M2|]. split; [exact M3|]. cbn [app] in ND. split; [intros (k & c & I & N); apply (ND k c I); exact N|]. split.
    { intros (k & c & I & N). apply N. rewrite spread_self; auto; [apply (ND k c I)|]. apply (kl_len _ _ KL), (wf_valid _ _ _ _ W k c I). }
    intros us ws SU IU LW. assert (CV : covers us x) by (split; auto). specialize (SM us CV). cbn [app] in SM. rewrite concat_single in SM. fold (vt KS us x) in SM. split; intros HE; rewrite !coef_nden, <- !vt_psum, SM.
    + apply iterm_coef; auto; [intros e; apply vt_len|apply vt_nodup; auto|]. intros v c J. unfold vt in J. apply in_map_iff in J as ([k c'] & EQ & J). apply (f_equal snd) in EQ. cbn [snd] in EQ. subst c'. exact (wf_nonzero _ _ _ _ W k c J).
    + apply iterm_zero; auto; [apply IU; eapply nth_error_In; eauto|]. intros e J. split; [eapply vt_len; eauto|]. unfold vt in J. apply in_map_iff in J as ([k c] & <- & J). cbn [fst]. rewrite expo_spread' by (auto; apply sorted_set_nodup; auto). apply (ND k c J).
  - right. exact HB.
Qed.

(** ss with s added, if it is not there. *)
Definition with_symbol (ss : symbol_set) (s : string) (u : symbol_set) : Prop := sorted_set u /\ forall z, In z u <-> In z ss \/ z = s.

Lemma integ_ok (x : series) s : WF x -> exists u, with_symbol (s_ss x) s u /\
  ((exists r, poly_integrate KO CO PO TO cdiv x s = Ok r /\ result x s r u) \/
   (poly_integrate KO CO PO TO cdiv x s = Throw domain_error /\ integ_domain x s) \/
   (key_overflow (poly_integrate KO CO PO TO cdiv x s) /\ (unrep KS u x \/ integ_unrep u x s \/ full (s_log2 x) (len (terms x))))).
Proof.
  intros W. unfold poly_integrate. cbv zeta. destruct (lower_bound (s_ss x) s) as [idx rest] eqn:EL. destruct (lower_bound_spec _ _ _ _ EL) as (A & B & L & D & F). pose proof (wf_ss _ _ _ _ W) as SS.
  destruct (in_dec string_dec s (s_ss x)) as [IS|IS].
  - exists (s_ss x). split; [split; [exact SS|]; intros z; split; [auto|intros [H| ->]; auto]|].
    assert (ER : exists q, rest = s :: q). 
    { destruct rest as [|y q]; [rewrite A in IS; rewrite app_nil_r in IS; apply D in IS; elim (slt_irrefl _ IS)|]. exists q. f_equal. rewrite A in IS. apply in_app_or in IS as [IS|[IS|IS]]; [apply D in IS; elim (slt_irrefl _ IS)|exact IS|].
      assert (X : sorted_set (y :: q)). { rewrite B. clear -SS. revert SS. generalize (s_ss x). induction idx as [|n IH]; intros l S; [exact S|]. destruct l; [constructor|]. inversion_clear S. cbn [skipn]. apply IH. auto. }
      inversion_clear X as [|? ? _ FF]. rewrite Forall_forall in FF. elim F. apply FF. exact IS. }
    destruct ER as [q ->]. rewrite String.eqb_refl. assert (EI : nth_error (s_ss x) idx = Some s). { rewrite A. rewrite nth_error_app2; rewrite firstn_length; [|lia]. rewrite Nat.min_l by lia. rewrite Nat.sub_diag. reflexivity. }
    destruct (integ_at x s idx W EI) as [H|[H|[H1 H2]]]; [left; exact H|right; left; exact H|right; right]. split; [left; exact H1|]. tauto.
  - assert (NR : match rest with y :: _ => y <> s | [] => True end). { destruct rest as [|y q]; [exact I|]. intros ->. apply IS. rewrite A. apply in_or_app. right. left. reflexivity. }
    set (u := firstn idx (s_ss x) ++ s :: rest). assert (SU : sorted_set u) by (eapply sorted_insert; eauto). exists u.
    assert (IU : with_symbol (s_ss x) s u). { split; [exact SU|]. intros z. unfold u. rewrite A at 2. rewrite !in_app_iff. cbn [In]. split; intros H; [destruct H as [H|[H|H]]; auto|destruct H as [[H|H]|H]; auto]. }
    split; [exact IU|]. assert (EXT : (match rest with y :: _ => if String.eqb y s then poly_integrate_at KO CO PO TO cdiv x idx else (merged_x <- extend_to KO CO PO TO (s_tag x) true (fun c => c) u x [(idx, [s])] ;; poly_integrate_at KO CO PO TO cdiv merged_x idx)
       | [] => (merged_x <- extend_to KO CO PO TO (s_tag x) true (fun c => c) u x [(idx, [s])] ;; poly_integrate_at KO CO PO TO cdiv merged_x idx) end) = (merged_x <- extend_to KO CO PO TO (s_tag x) true (fun c => c) u x [(idx, [s])] ;; poly_integrate_at KO CO PO TO cdiv merged_x idx)).
    { destruct rest as [|y q]; [reflexivity|]. destruct (String.eqb_spec y s); [contradiction|reflexivity]. }
    fold u. rewrite EXT. clear EXT.
    assert (EU : insert_all (ins_at [(idx, [s])]) 0 (s_ss x) = u) by (unfold u; rewrite B; apply (insert_one s (s_ss x) idx 0 L)).
    assert (IM : ins_map_ok (len (s_ss x)) [(idx, [s])]) by (split; repeat constructor; cbn; [exact L|discriminate]).
    assert (INC : incl (s_ss x) u) by (intros z J; apply IU; auto).
    destruct (extend_ok KO KS CO CO PO TO KL CL (fun c => c) eq_refl (fun _ _ => eq_refl) (s_tag x) true x [(idx, [s])] u W IM EU SU (or_introl eq_refl)) as [(a & EA & Wa & SA & TA & LA & DA & NA)|(KV & H)].
    + rewrite EA. cbn [bind]. assert (OV : over_u KO KS CO u x a). { split; [exact Wa|]. split; [exact SA|]. split; [exact NA|]. intros ws. rewrite !coef_nden. unfold nden at 1. rewrite DA, SA. apply (vden_spread KS CO u u x (fun v => vec_eqb v ws) INC). }
      assert (EI : nth_error (s_ss a) idx = Some s). { rewrite SA. unfold u. rewrite nth_error_app2; rewrite firstn_length; [|lia]. rewrite Nat.min_l by lia. rewrite Nat.sub_diag. reflexivity. }
      assert (VS : forall us, sorted_set us -> incl u us -> same CO (vt KS us a) (vt KS us x)). { intros us SUS IUS. apply (same_eqb CO CL). intros v. eapply vt_same; eauto. }
      assert (TD : forall k c, In (k, c) (terms a) -> exists k' c', In (k', c') (terms x) /\ exps a k = spread (s_ss x) u (exps x k')).
      { intros k c J. destruct (over_term KO KS CO KL CL u x a k c W SU INC OV J) as (k' & c' & J' & EK). exists k', c'. rewrite SA in *. auto. }
      assert (TU : forall k c, In (k, c) (terms x) -> exists k' c', In (k', c') (terms a) /\ exps a k' = spread (s_ss x) u (exps x k)).
      { intros k c J. destruct (over_term' KO KS CO KL CL u x a k c W SU INC OV J) as (k' & c' & J' & EK). exists k', c'. rewrite SA in *. auto. }
      assert (LX : forall k c, In (k, c) (terms x) -> expo u (spread (s_ss x) u (exps x k)) s = 0) by (intros k c J; rewrite expo_spread' by (auto; apply sorted_set_nodup; exact SU); apply expo_notin; exact IS).
      destruct (integ_at a s idx Wa EI) as [(r & ER & (Wr & R1 & R2 & R3 & R4 & R5 & R6))|[[H1 H2]|[H1 H2]]].
      * left. exists r. split; [exact ER|]. split; [exact Wr|]. split; [congruence|]. split; [congruence|]. split; [congruence|]. split.
        { intros (k & c & J & N). rewrite expo_notin in N by exact IS. discriminate. }
        split. { intros (k & c & J & N). destruct (TU k c J) as (k' & c' & J' & EK). apply R5. exists k', c'. split; [exact J'|]. rewrite SA, <- SA at 1. rewrite spread_self; [rewrite EK, SA; exact N|apply sorted_set_nodup, (wf_ss _ _ _ _ Wa)|eapply exps_len; eauto]. }
        intros us ws SUS IUS LW. destruct (R6 us ws SUS ltac:(rewrite SA; exact IUS) LW) as [R7 R8]. split; [|exact R8]. intros N. rewrite (R7 N). assert (CE : coef KS CO us a ws = coef KS CO us x ws) by (rewrite !coef_nden, <- !vt_psum; apply VS; auto). rewrite CE. reflexivity.
      * exfalso. destruct H2 as (k & c & J & N). destruct (TD k c J) as (k' & c' & J' & EK). rewrite EK, SA, (LX k' c' J') in N. discriminate.
      * right. right. split; [left; exact H1|]. right. destruct H2 as [(k & c & J & N)|H2].
        -- left. destruct (TD k c J) as (k' & c' & J' & EK). exists k', c'. split; [exact J'|]. rewrite EK, SA in N. rewrite spread_self in N; auto; [apply sorted_set_nodup; exact SU|]. apply spread_len.
        -- right. rewrite LA in H2. destruct H2 as [F1 F2]. split; [exact F1|]. eapply Z.le_trans; [exact F2|]. apply Nat2Z.inj_le. exact NA.
    + right. right. assert (KV' : key_overflow (extend_to KO CO PO TO (s_tag x) true (fun c => c) u x [(idx, [s])])) by exact KV. split; [destruct KV as [-> | ->]; [left|right]; reflexivity|]. destruct H as [H|H]; [left; exact H|right; right; exact H].
Qed.
End Integ.
