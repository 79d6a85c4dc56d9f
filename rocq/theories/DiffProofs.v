(** Differentiation and integration of polynomials: the loops. *)
From Coq Require Import ZArith List Bool String Arith Sorted Permutation Lia Ring Ring_theory.
From Verif Require Import Base IntModel SymModel SymSpec SymProofs P_Sym PMonSpec KeyOps
  SeriesModel SeriesModel2 SeriesSpec SeriesProofs SeriesProofs2 SeriesProofs3 SeriesProofs4 SeriesProofs5 SeriesProofs6 Lin EvalSpec SeriesEval SeriesProofs7 P_Series P_Series2
  PolyModel PolyModel2 PolySpec PolyProofs7 PolyProofs8 PolyProofs9 P_Poly CalcSpec.
Import ListNotations.
Open Scope Z_scope.
Open Scope res_scope.
Local Notation len := List.length.

(** A loop invariant. *)
Lemma rfold_inv {A B} (f : B -> A -> res B) (I : list A -> B -> Prop) (Bad : res B -> Prop) : (forall b, ~ Bad (Ok b)) ->
  forall l pre b, I pre b -> (forall p b a q, pre ++ l = p ++ a :: q -> I p b -> (exists b', f b a = Ok b' /\ I (p ++ [a]) b') \/ Bad (f b a)) ->
  (exists b', rfold f l b = Ok b' /\ I (pre ++ l) b') \/ Bad (rfold f l b).
Proof.
  intros NB. induction l as [|a l IH]; intros pre b H S; [left; exists b; rewrite app_nil_r; auto|]. cbn [rfold].
  destruct (S pre b a l eq_refl H) as [(b' & -> & H')|HB].
  - cbn [bind]. destruct (IH (pre ++ [a]) b' H') as [(b'' & E & Q)|Q]; [intros p b0 a0 q EQ; apply (S p b0 a0 q); rewrite <- EQ, <- app_assoc; reflexivity| |].
    + left. exists b''. rewrite <- app_assoc in Q. auto.
    + right. exact Q.
  - right. destruct (f b a); [elim (NB _ HB)|exact HB|exact HB].
Qed.

(** Exponents. *)
Lemma expo_set_at ss : forall i y vs z, NoDup ss -> len vs = len ss -> nth_error ss i = Some z -> forall t, expo ss (set_at i y vs) t = if String.eqb z t then y else expo ss vs t.
Proof.
  unfold set_at. induction ss as [|x ss IH]; intros i y [|v vs] z ND L E t; try discriminate; [destruct i; discriminate|]. inversion_clear ND as [|? ? NI ND']. destruct i as [|i].
  - injection E as ->. cbn. destruct (String.eqb_spec z t); reflexivity.
  - cbn [nth_error] in E. cbn [firstn skipn app expo]. rewrite (IH i y vs z ND') by (auto; cbn in L; lia). destruct (String.eqb_spec x t) as [->|N]; [|reflexivity].
    destruct (String.eqb_spec z t) as [->|N']; [|reflexivity]. elim NI. eapply nth_error_In; eauto.
Qed.
Lemma bump_len us s n ws : len ws = len us -> len (bump us s n ws) = len us.
Proof. intros L. unfold bump. rewrite map_length, combine_length. lia. Qed.
Lemma bump_map us s n (f : string -> Z) : bump us s n (map f us) = map (fun t => if String.eqb t s then f t + n else f t) us.
Proof. unfold bump. induction us as [|x us IH]; [reflexivity|]. cbn [map combine fst snd]. rewrite IH. reflexivity. Qed.
Lemma bump_add us s n m : forall ws, len ws = len us -> bump us s n (bump us s m ws) = bump us s (m + n) ws.
Proof.
  unfold bump. induction us as [|x us IH]; intros [|w ws] L; try discriminate; [reflexivity|]. cbn [combine map fst snd]. rewrite IH by (cbn in L; lia). f_equal. destruct (String.eqb x s); lia.
Qed.
Lemma bump_0 us s : forall ws, len ws = len us -> bump us s 0 ws = ws.
Proof.
  unfold bump. induction us as [|x us IH]; intros [|w ws] L; try discriminate; [reflexivity|]. cbn [combine map fst snd]. rewrite IH by (cbn in L; lia). f_equal. destruct (String.eqb x s); lia.
Qed.
Lemma expo_bump us s n : forall ws t, len ws = len us -> expo us (bump us s n ws) t = if String.eqb t s then (if in_dec string_dec s us then expo us ws t + n else 0) else expo us ws t.
Proof.
  unfold bump. induction us as [|x us IH]; intros [|w ws] t L; try discriminate; [cbn; destruct (String.eqb t s); reflexivity|]. cbn [combine map fst snd expo]. rewrite IH by (cbn in L; lia).
  destruct (String.eqb_spec x t) as [->|N].
  - destruct (String.eqb_spec t s) as [->|N']; [|reflexivity]. destruct (in_dec string_dec s (s :: us)) as [_|X]; [reflexivity|elim X; left; reflexivity].
  - destruct (String.eqb_spec t s) as [->|N']; [|reflexivity]. destruct (in_dec string_dec s us) as [I|I], (in_dec string_dec s (x :: us)) as [J|J]; try reflexivity; [elim J; right; exact I|destruct J; [congruence|contradiction]].
Qed.
Lemma bump_vadd us s n : forall v w, len v = len us -> len w = len us -> bump us s n (vadd v w) = vadd (bump us s n v) w.
Proof.
  unfold bump, vadd. induction us as [|x us IH]; intros [|a v] [|b w] L1 L2; try discriminate; [reflexivity|]. cbn [combine map fst snd]. rewrite IH by (cbn in *; lia). f_equal. destruct (String.eqb x s); lia.
Qed.
(** The spread of a changed exponent. *)
Lemma spread_set_at ss us i n vs z : NoDup ss -> len vs = len ss -> nth_error ss i = Some z -> spread ss us (set_at i (nth i vs 0 + n) vs) = bump us z n (spread ss us vs).
Proof.
  intros ND L E. unfold spread. rewrite bump_map. apply map_ext_in. intros t _. rewrite (expo_set_at ss i _ vs z ND L E). destruct (String.eqb_spec z t) as [->|N].
  - rewrite String.eqb_refl. f_equal. assert (LI : (i < len vs)%nat) by (rewrite L; apply nth_error_Some; congruence). symmetry. eapply expo_nth; eauto. apply nth_error_nth'. exact LI.
  - destruct (String.eqb_spec t z); [congruence|reflexivity].
Qed.
Lemma vec_eqb_bump us s n v ws : len v = len us -> len ws = len us -> vec_eqb (bump us s n v) ws = vec_eqb v (bump us s (- n) ws).
Proof.
  intros L1 L2. unfold vec_eqb. destruct (list_eq_dec _ _ _) as [E|E], (list_eq_dec _ _ _) as [F|F]; try reflexivity; exfalso.
  - apply F. rewrite <- E, bump_add by auto. replace (n + - n) with 0 by lia. rewrite bump_0; auto.
  - apply E. rewrite F, bump_add by auto. replace (- n + n) with 0 by lia. rewrite bump_0; auto.
Qed.

Section Calc.
Context {K C Tag : Type} (KO : key_ops K) (KS : key_sem K) (CO : cf_ops C) (PO : tbl_policy (K * C)) (TO : tag_ops Tag).
Context (KL : key_laws KO KS) (CL : cf_laws CO).
Notation series := (series K C Tag).
Notation WF := (wf KO KS CO).
Notation exps s k := (ks_exps KS (List.length (s_ss s)) k).
Infix "+c" := (c_add CO) (at level 50, left associativity).
Infix "*c" := (c_mul CO) (at level 40, left associativity).
Add Ring CringD : (cl_ring _ CL).
Notation vterm := (list Z * C)%type.
Variable cz : Z -> C.
Hypothesis CZ : int_embedding CO cz.

(** The derivative of a term. *)
Definition dterm (us : symbol_set) (s : string) (a : vterm) : vterm := (bump us s (-1) (fst a), snd a *c cz (expo us (fst a) s)).

(** A series filled from the terms [done] of x by a map f of terms: invariant of the loops. *)
Definition filled (x r : series) (f : symbol_set -> vterm -> list vterm) (b : nat) (done : list (K * C)) : Prop :=
  WF r /\ same_meta x r /\ (forall us, covers us x -> same CO (vt KS us r) (List.concat (map (f us) (map (fun e => (spread (s_ss x) us (exps x (fst e)), snd e)) done)))) /\ (len (terms r) <= b * len done)%nat.

Lemma start_ok (x : series) : WF x ->
  (retval <- set_symbol_set (series_default TO : series) (s_ss x) ;; set_n_segments (set_tag retval (s_tag x)) (get_s_size x)) =
    Ok (Series (repeat [] (2 ^ s_log2 x)) (s_log2 x) (s_tag x) (s_ss x)) /\
  forall f b, filled x (Series (repeat [] (2 ^ s_log2 x)) (s_log2 x) (s_tag x) (s_ss x)) f b [].
Proof.
  intros W. unfold set_symbol_set. change (series_empty (series_default TO)) with true. cbn iota. cbn [bind]. unfold set_tag, get_s_size. cbn [s_tables s_log2 s_ss series_default].
  destruct (set_n_segments_ok KO KS CO (Series [[]] 0 (s_tag x) (s_ss x)) (s_log2 x) (wf_log2 _ _ _ _ W) (wf_ss _ _ _ _ W)) as [E W0]. cbn [s_tag s_ss] in *. split; [exact E|]. intros f b.
  assert (T : terms (Series (repeat [] (2 ^ s_log2 x)) (s_log2 x) (s_tag x) (s_ss x) : series) = []). { unfold terms. cbn [s_tables]. generalize (2 ^ s_log2 x)%nat as n. induction n as [|n IH]; [reflexivity|]. cbn [repeat List.concat app]. exact IH. }
  split; [exact W0|]. split; [repeat split|]. split; [intros us _; unfold vt; rewrite T; apply same_refl|rewrite T; cbn; lia].
Qed.

(** Adding a term to such a series. *)
Lemma add_ok (x r : series) k c : WF x -> WF r -> same_meta x r -> ks_valid KS (len (s_ss x)) k ->
  (exists r', add_term KO CO PO true r k c = Ok r' /\ WF r' /\ same_meta x r' /\ (forall us, same CO (vt KS us r') (vt KS us r ++ [(spread (s_ss x) us (exps x k), c)])) /\ (len (terms r') <= S (len (terms r)))%nat) \/
  (add_term KO CO PO true r k c = Throw overflow_error /\ full (s_log2 x) (len (terms r))).
Proof.
  intros Wx Wr (M1 & M2 & M3) V. unfold add_term.
  destruct (add_term_gen KO KS CO PO KL CL true true true true false r k c Wr ltac:(rewrite M1; exact V) ltac:(discriminate) (or_introl eq_refl) (or_introl eq_refl)) as [(r' & E & Wr' & (N1 & N2 & N3) & _ & PS & NL)|(E & X1 & X2)].
  - left. exists r'. split; [exact E|]. split; [exact Wr'|]. split; [split; [congruence|]; split; congruence|]. split; [|exact NL].
    intros us Q. rewrite (psum_app CO CL), !vt_psum. unfold nden, vden. rewrite N1, PS, M1. f_equal. rewrite (psum_cons CO CL). cbn [fst snd]. change (@psum (list Z) C CO Q []) with (c_zero CO). unfold sg. ring.
  - right. rewrite M3 in *. split; [exact E|]. split; auto.
Qed.

(** ** Differentiation *)
Lemma index_some s : forall ss : symbol_set, In s ss -> nth_error ss (ss_index ss s) = Some s /\ (ss_index ss s < len ss)%nat.
Proof.
  induction ss as [|x ss IH]; intros I; [elim I|]. cbn [ss_index List.length]. destruct (String.eqb_spec x s) as [->|N]; [split; [reflexivity|lia]|]. destruct I as [I|I]; [congruence|]. destruct (IH I) as [H1 H2]. split; [exact H1|lia].
Qed.
Lemma index_none s : forall ss : symbol_set, ~ In s ss -> ss_index ss s = len ss.
Proof.
  induction ss as [|x ss IH]; intros I; [reflexivity|]. cbn [ss_index List.length]. destruct (String.eqb_spec x s) as [->|N]; [elim I; left; reflexivity|]. rewrite IH; [reflexivity|]. intros J. apply I. right. exact J.
Qed.

(** The derivative of the term with key k is not representable. *)
Definition diff_unrep (x : series) (s : string) : Prop :=
  exists k c, In (k, c) (terms x) /\ expo (s_ss x) (exps x k) s <> 0 /\ ~ ks_fits KS (bump (s_ss x) s (-1) (exps x k)).

Lemma expo_spread' ss us vs s : incl ss us -> NoDup us -> expo us (spread ss us vs) s = expo ss vs s.
Proof.
  intros I ND. unfold spread. rewrite expo_map. destruct (in_dec string_dec s us) as [J|J]; [reflexivity|]. symmetry. apply expo_notin. intros X. apply J, I, X.
Qed.

Lemma concat_single {A B} (f : A -> B) l : List.concat (map (fun a => [f a]) l) = map f l.
Proof. induction l as [|a l IH]; [reflexivity|]. cbn [map List.concat app]. rewrite IH. reflexivity. Qed.

Lemma diff_loop (x : series) s : WF x ->
  (exists r, poly_diff KO CO PO TO cz x s = Ok r /\ WF r /\ same_meta x r /\ (forall us, covers us x -> same CO (vt KS us r) (map (dterm us s) (vt KS us x)))) \/
  (poly_diff KO CO PO TO cz x s = Throw overflow_error /\ (diff_unrep x s \/ full (s_log2 x) (2 * len (terms x)))).
Proof.
  intros W. unfold poly_diff. destruct (start_ok x W) as [ES FS]. cbv zeta.
  match goal with |- context [rfold ?f _ _] => set (step := f) end.
  assert (X : (retval <- set_symbol_set (series_default TO : series) (s_ss x) ;; retval0 <- set_n_segments (set_tag retval (s_tag x)) (get_s_size x) ;; rfold step (terms x) retval0) =
     (retval <- (retval <- set_symbol_set (series_default TO : series) (s_ss x) ;; set_n_segments (set_tag retval (s_tag x)) (get_s_size x)) ;; rfold step (terms x) retval)).
  { destruct (set_symbol_set (series_default TO) (s_ss x)); reflexivity. }
  rewrite X, ES. cbn [bind]. clear X ES. set (r0 := Series (repeat [] (2 ^ s_log2 x)) (s_log2 x) (s_tag x) (s_ss x) : series) in *.
  assert (NDs : NoDup (s_ss x)) by (apply sorted_set_nodup, (wf_ss _ _ _ _ W)).
  set (Bad := fun q : res series => q = Throw overflow_error /\ (diff_unrep x s \/ full (s_log2 x) (2 * len (terms x)))).
  destruct (rfold_inv step (fun done r => filled x r (fun us a => [dterm us s a]) 2 done) Bad) with (l := terms x) (pre := @nil (K * C)) (b := r0) as [(r & E & (Wr & M & SM & _))|HB].
  - intros b [X _]. discriminate.
  - apply FS.
  - cbn [app]. intros p r [k c] q EQ (Wr & M & SM & NL). assert (I : In (k, c) (terms x)) by (rewrite EQ; apply in_or_app; right; left; reflexivity).
    assert (LT : (S (len p) <= len (terms x))%nat) by (rewrite EQ, app_length; cbn; lia).
    pose proof (wf_valid _ _ _ _ W k c I) as V. unfold step. cbn [fst snd].
    assert (LE : len (exps x k) = len (s_ss x)) by (apply (kl_len _ _ KL); exact V).
    assert (FULL : forall n, (n <= S (2 * len p))%nat -> full (s_log2 x) n -> full (s_log2 x) (2 * len (terms x))) by (intros n Ln [F1 F2]; split; [exact F1|]; eapply Z.le_trans; [exact F2|]; apply Nat2Z.inj_le; lia).
    destruct (add_ok x r k (c_zero CO) W Wr M V) as [(r1 & E1 & W1 & M1 & S1 & L1)|[E1 F1]]; [|right; rewrite E1; split; [reflexivity|]; right; apply (FULL (len (terms r))); [lia|exact F1]]. rewrite E1. cbn [bind].
    (* the terms so far, without the zero *)
    assert (S1' : forall us, same CO (vt KS us r1) (vt KS us r)). { intros us Q. rewrite S1, (psum_app CO CL), (psum_cons CO CL). cbn [fst snd]. change (psum CO _ []) with (c_zero CO). destruct (Q _); cbn [ifP]; ring. }
    assert (FIN : forall r', WF r' -> same_meta x r' -> (len (terms r') <= S (S (len (terms r))))%nat -> (forall us, covers us x -> same CO (vt KS us r') (vt KS us r ++ [dterm us s (spread (s_ss x) us (exps x k), c)])) ->
      filled x r' (fun us a => [dterm us s a]) 2 (p ++ [(k, c)])).
    { intros r' Wr' M' NL' S'. split; [exact Wr'|]. split; [exact M'|]. split; [|rewrite app_length; cbn [List.length]; lia]. intros us CV. rewrite !map_app, concat_app. cbn [map List.concat app fst snd].
      eapply same_trans; [apply S'; exact CV|]. apply (same_app CO CL); [apply SM; exact CV|apply same_refl]. }
    destruct (in_dec string_dec s (s_ss x)) as [IS|IS].
    + destruct (index_some s (s_ss x) IS) as [EI LI]. assert (negb (Nat.eqb (ss_index (s_ss x) s) (len (s_ss x))) = true) as -> by (apply negb_true_iff, Nat.eqb_neq; lia).
      destruct (kl_diff _ _ KL k (s_ss x) (ss_index (s_ss x) s) V LI) as (D0 & D1 & D2).
      assert (EX : nth (ss_index (s_ss x) s) (exps x k) 0 = expo (s_ss x) (exps x k) s) by (symmetry; eapply expo_nth; eauto; apply nth_error_nth'; rewrite LE; exact LI).
      assert (SA : set_at (ss_index (s_ss x) s) (nth (ss_index (s_ss x) s) (exps x k) 0 - 1) (exps x k) = bump (s_ss x) s (-1) (exps x k)).
      { pose proof (spread_set_at (s_ss x) (s_ss x) (ss_index (s_ss x) s) (-1) (exps x k) s NDs LE EI) as H. rewrite !spread_self in H; auto. unfold set_at. rewrite app_length, firstn_length. cbn [List.length]. rewrite skipn_length. lia. }
      rewrite SA, EX in *. destruct (Z.eq_dec (expo (s_ss x) (exps x k) s) 0) as [Z0|NZ].
      * rewrite (D0 Z0). cbn [bind]. destruct (add_ok x r1 k (c *c cz 0) W W1 M1 V) as [(r2 & E2 & W2 & M2 & S2 & L2)|[E2 F2]]; [|right; rewrite E2; split; [reflexivity|]; right; apply (FULL (len (terms r1))); [lia|exact F2]].
        left. exists r2. split; [exact E2|]. apply FIN; auto; [lia|]. intros us CV Q. rewrite S2, !(psum_app CO CL), S1'. f_equal. rewrite !(psum_cons CO CL). cbn [dterm fst snd]. rewrite expo_spread' by (try apply CV; apply sorted_set_nodup, CV). rewrite Z0.
        rewrite (ie_zero _ _ CZ). destruct (Q (spread _ _ _)), (Q (bump _ _ _ _)); cbn [ifP]; ring.
      * destruct (kl_fits_dec _ _ KL (bump (s_ss x) s (-1) (exps x k))) as [F|F].
        -- destruct (D1 NZ F) as (k' & EK & V' & EX'). rewrite EK. cbn [bind]. destruct (add_ok x r1 k' (c *c cz (expo (s_ss x) (exps x k) s)) W W1 M1 V') as [(r2 & E2 & W2 & M2 & S2 & L2)|[E2 F2]]; [|right; rewrite E2; split; [reflexivity|]; right; apply (FULL (len (terms r1))); [lia|exact F2]].
           left. exists r2. split; [exact E2|]. apply FIN; auto; [lia|]. intros us CV Q. rewrite S2, !(psum_app CO CL), S1'. f_equal. rewrite !(psum_cons CO CL). cbn [dterm fst snd]. rewrite expo_spread' by (try apply CV; apply sorted_set_nodup, CV).
           rewrite EX', <- SA, <- EX. replace (nth (ss_index (s_ss x) s) (exps x k) 0 - 1) with (nth (ss_index (s_ss x) s) (exps x k) 0 + -1) by lia. rewrite (spread_set_at (s_ss x) us _ (-1) _ s NDs LE EI). reflexivity.
        -- rewrite (D2 NZ F). right. split; [reflexivity|]. left. exists k, c. auto.
    + rewrite (index_none s _ IS), Nat.eqb_refl. cbn [negb]. left. exists r1. split; [reflexivity|]. apply FIN; auto. intros us CV Q. rewrite !(psum_app CO CL), S1'. rewrite (psum_cons CO CL). cbn [dterm fst snd].
      rewrite expo_spread' by (try apply CV; apply sorted_set_nodup, CV). rewrite expo_notin by exact IS. rewrite (ie_zero _ _ CZ). change (psum CO _ []) with (c_zero CO). destruct (Q _); cbn [ifP]; ring.
  - left. exists r. split; [exact E|]. split; [exact Wr|]. split; [exact M|]. intros us CV. eapply same_trans; [apply SM; exact CV|]. cbn [app]. rewrite concat_single. apply same_refl.
  - right. exact HB.
Qed.
End Calc.
