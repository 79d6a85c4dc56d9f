(** Proofs about series.hpp, part 6: degree, trimming, symbol addition, construction and conversion, evaluation. *)
From Coq Require Import ZArith List Bool String Arith Sorted Permutation Lia Ring Ring_theory.
From Verif Require Import Base IntModel SymModel SymSpec SymProofs P_Sym PMonSpec PMonProofs PMonProofs2 KeyOps SeriesModel SeriesModel2 SeriesSpec SeriesProofs SeriesProofs2 SeriesProofs3 SeriesProofs4 SeriesProofs5.
Import ListNotations.
Open Scope Z_scope.

Lemma sorted_select keep (l : list string) : forall i, sorted_set l -> sorted_set (select_from keep i l).
Proof.
  induction l as [|x l IH]; intros i S; [constructor|]. inversion S; subst. rewrite select_from_cons. destruct (keep i); [|apply IH; assumption].
  constructor; [apply IH; assumption|]. apply select_Forall. assumption.
Qed.

(** The symbols identified for trimming and the remaining ones (series.hpp:4135-4155). *)
Lemma trim_flags (ss : list string) : forall (v : list Z) off, len v = len ss ->
  let flags := combine (combine (seq off (len ss)) ss) v in
  let si := map (fun p => fst (fst p)) (filter (fun p => negb (snd p =? 0)) flags) in
  (forall i, In i si <-> (off <= i < off + len ss)%nat /\ nth (i - off) v 0 <> 0) /\
  StronglySorted lt si /\
  map (fun p => snd (fst p)) (filter (fun p => snd p =? 0) flags) = select_from (fun i => nth (i - off) v 0 =? 0) off ss.
Proof.
  induction ss as [|x ss IH]; intros [|z v] off L; try discriminate; cbn zeta.
  - split; [|split]; [|constructor|reflexivity]. intros i. cbn. split; [intros []|lia].
  - cbn [List.length seq combine filter snd fst]. destruct (IH v (S off)) as (A & B & D); [cbn in L; lia|]. cbn zeta in A, B, D.
    assert (NX : forall i, (S off <= i)%nat -> nth (i - off) (z :: v) 0 = nth (i - S off) v 0).
    { intros i Hi. replace (i - off)%nat with (S (i - S off)) by lia. reflexivity. }
    assert (SEL : select_from (fun i => nth (i - off) (z :: v) 0 =? 0) (S off) ss = select_from (fun i => nth (i - S off) v 0 =? 0) (S off) ss).
    { apply select_from_ext. intros j Hj. rewrite NX by lia. reflexivity. }
    rewrite select_from_cons, SEL, Nat.sub_diag. change (nth 0 (z :: v) 0) with z.
    destruct (Z.eqb_spec z 0) as [->|NZ]; cbn [negb map fst snd].
    + split; [|split; [exact B|rewrite D; reflexivity]]. intros i. rewrite A. split.
      * intros [H1 H2]. rewrite <- NX in H2 by lia. split; [lia|exact H2].
      * intros [H1 H2]. destruct (Nat.eq_dec i off) as [->|Ne]; [rewrite Nat.sub_diag in H2; cbn in H2; lia|]. rewrite NX in H2 by lia. split; [lia|exact H2].
    + split; [|split; [|exact D]].
      * intros i. cbn [In]. rewrite A. split.
        -- intros [<-|[H1 H2]]; [rewrite Nat.sub_diag; cbn; lia|]. rewrite <- NX in H2 by lia. split; [lia|exact H2].
        -- intros [H1 H2]. destruct (Nat.eq_dec i off) as [->|Ne]; [auto|]. right. rewrite NX in H2 by lia. split; [lia|exact H2].
      * constructor; [exact B|]. apply Forall_forall. intros i I. apply A in I. lia.
Qed.

Lemma mem_iff i si : mem i si = true <-> In i si.
Proof. unfold mem. rewrite existsb_exists. split; [intros (x & I & E); apply Nat.eqb_eq in E; subst; exact I|]. intros I. exists i. split; auto. apply Nat.eqb_refl. Qed.

Lemma select_eq {A} keep (l : list A) : select keep l = select_from keep 0 l.
Proof. reflexivity. Qed.

Section P6.
Context {K C Tag : Type} (KO : key_ops K) (KS : key_sem K) (CO : cf_ops C) (PO : tbl_policy (K * C)) (TO : tag_ops Tag).
Hypothesis KL : key_laws KO KS.
Hypothesis CL : cf_laws CO.
Notation "0c" := (c_zero CO).
Infix "+c" := (c_add CO) (at level 50, left associativity).
Infix "-c" := (c_sub CO) (at level 50, left associativity).
Infix "*c" := (c_mul CO) (at level 40, left associativity).
Notation "-c x" := (c_neg CO x) (at level 35).
Add Ring Cring6 : (cl_ring CO CL).
Notation series := (series K C Tag).

(** ** Degree *)

Lemma max_loop (deg : K * C -> res Z) (d : K * C -> Z) (good : K * C -> Prop) : (forall e, good e \/ ~ good e) -> forall l pre m,
  (forall e, In e l -> good e -> deg e = Ok (d e)) -> (forall e, In e l -> ~ good e -> deg e = Throw overflow_error) ->
  In m pre -> (forall v, In v pre -> v <= m) ->
  (exists r, rfold (fun max_deg e => cur <- deg e ;; Ok (if max_deg <? cur then cur else max_deg)) l m = Ok r /\ (forall e, In e l -> good e) /\
     In r (pre ++ map d l) /\ forall v, In v (pre ++ map d l) -> v <= r) \/
  (rfold (fun max_deg e => cur <- deg e ;; Ok (if max_deg <? cur then cur else max_deg)) l m = Throw overflow_error /\ exists e, In e l /\ ~ good e).
Proof.
  intros DEC. induction l as [|e l IH]; intros pre m G B IM MM; cbn [rfold].
  - left. exists m. split; [reflexivity|]. split; [intros e []|]. cbn [map]. rewrite app_nil_r. auto.
  - destruct (DEC e) as [g|b].
    2:{ right. rewrite (B e (or_introl eq_refl) b). cbn [bind]. split; [reflexivity|]. exists e. split; [left; reflexivity|exact b]. }
    rewrite (G e (or_introl eq_refl) g). cbn [bind].
    destruct (IH (pre ++ [d e]) (if m <? d e then d e else m)) as [(r & E & Gr & Ir & Mr)|[E (e' & Ie' & be')]].
    + intros e' Ie'. apply G. right. exact Ie'.
    + intros e' Ie'. apply B. right. exact Ie'.
    + apply in_or_app. destruct (m <? d e); [right; left; reflexivity|left; exact IM].
    + intros v Iv. apply in_app_or in Iv as [Iv|[<-|[]]]; destruct (Z.ltb_spec m (d e)); try specialize (MM v Iv); lia.
    + left. exists r. split; [exact E|]. split; [intros e' [<-|I]; auto|]. rewrite <- app_assoc in Ir, Mr. split; [exact Ir|exact Mr].
    + right. split; [exact E|]. exists e'. split; [right; exact Ie'|exact be'].
Qed.

Lemma max_degree_ok (deg : K * C -> res Z) (d : K * C -> Z) (good : K * C -> Prop) (s : series) : (forall e, good e \/ ~ good e) ->
  (forall e, In e (terms s) -> good e -> deg e = Ok (d e)) -> (forall e, In e (terms s) -> ~ good e -> deg e = Throw overflow_error) ->
  (exists m, max_degree deg s = Ok m /\ (forall e, In e (terms s) -> good e) /\ is_max (map d (terms s)) m) \/
  (max_degree deg s = Throw overflow_error /\ exists e, In e (terms s) /\ ~ good e).
Proof.
  intros DEC G B. unfold max_degree. destruct (series_empty s) eqn:E.
  - apply empty_terms in E. left. exists 0. split; [reflexivity|]. rewrite E. split; [intros e []|]. left. auto.
  - assert (NE : terms s <> []) by (intros X; apply empty_terms in X; congruence).
    destruct (terms s) as [|e0 l]; [contradiction|]. clear NE E.
    destruct (DEC e0) as [g0|b0].
    2:{ right. rewrite (B e0 (or_introl eq_refl) b0). cbn [bind]. split; [reflexivity|]. exists e0. split; [left; reflexivity|exact b0]. }
    rewrite (G e0 (or_introl eq_refl) g0). cbn [bind].
    destruct (max_loop deg d good DEC l [d e0] (d e0)) as [(r & E & Gr & Ir & Mr)|[E (e' & Ie' & be')]].
    + intros e' Ie'. apply G. right. exact Ie'.
    + intros e' Ie'. apply B. right. exact Ie'.
    + left. reflexivity.
    + intros v [<-|[]]. lia.
    + left. exists r. split; [exact E|]. split; [intros e' [<-|I]; auto|]. right. split; [exact Ir|exact Mr].
    + right. split; [exact E|]. exists e'. split; [right; exact Ie'|exact be'].
Qed.

(** ** Construction *)
Lemma of_cf_ok c (ss : symbol_set) : sorted_set ss -> ks_fits KS (repeat 0 (len ss)) ->
  exists r : series, series_of_cf KO CO PO TO c ss = Ok r /\ wf KO KS CO r /\ s_ss r = ss /\ s_tag r = tag_default TO /\ s_log2 r = 0%nat /\
    terms r = (if c_is_zero CO c then [] else [(k_of_ss KO ss, c)]).
Proof.
  intros SS FT. destruct (kl_unit _ _ KL ss FT) as [VU XU].
  set (s0 := Series [[]] 0 (tag_default TO) ss : series).
  assert (W0 : wf KO KS CO s0). { destruct (set_n_segments_ok KO KS CO s0 0) as [_ X]; [cbn; lia|exact SS|exact X]. }
  unfold series_of_cf, series_add_term_table. cbn [andb bind negb tbl_try_emplace tbl_find find orb].
  assert (RE : reorder PO [(k_of_ss KO ss, c)] = [(k_of_ss KO ss, c)]).
  { apply Permutation_length_1_inv. apply Permutation_sym, reorder_perm. }
  unfold tbl_try_emplace, tbl_find. cbn [find]. rewrite RE. cbn [find fst]. rewrite (keqb_refl KO KS KL). cbn [snd]. rewrite (kl_zero _ _ KL). cbn [orb].
  destruct (c_is_zero CO c) eqn:E.
  - cbn [tbl_erase filter fst]. rewrite (keqb_refl KO KS KL). cbn [negb bind]. eexists. split; [reflexivity|]. split; [exact W0|]. repeat split; auto.
  - cbn [bind]. eexists. split; [reflexivity|]. split; [|repeat split; auto].
    apply wf_iff. unfold wf'. cbn [s_ss s_log2 s_tables]. split; [exact SS|]. split; [cbn; lia|]. split; [reflexivity|].
    intros [|i] t H; [|destruct i; discriminate]. cbn in H. inversion H; subst t. split; [cbn; constructor; [intros []|constructor]|]. split; [|intros X; elim X; reflexivity].
    intros k d [I|[]]. inversion I; subst. split; [exact VU|]. split; [|cbn; apply Z.mod_1_r].
    intros X. rewrite X in E. rewrite (proj2 (cl_zero _ CL _)) in E by reflexivity. discriminate.
Qed.

Lemma to_cf_ok {T} (zero : T) (of_cf : C -> T) (s : series) : wf KO KS CO s ->
  (terms s = [] /\ series_to_cf KO zero of_cf s = Ok zero) \/
  (exists k c, terms s = [(k, c)] /\ ks_exps KS (len (s_ss s)) k = repeat 0 (len (s_ss s)) /\ series_to_cf KO zero of_cf s = Ok (of_cf c)) \/
  ((exists k c, In (k, c) (terms s) /\ ks_exps KS (len (s_ss s)) k <> repeat 0 (len (s_ss s))) /\ series_to_cf KO zero of_cf s = Throw invalid_argument).
Proof.
  intros W. unfold series_to_cf. rewrite size_terms. pose proof (wf_keys _ _ _ _ W) as N. pose proof (wf_valid _ _ _ _ W) as V. destruct (terms s) as [|[k c] [|[k' c'] l]] eqn:T0; cbn [List.length].
  - left. auto.
  - right. rewrite (begin_single s _ T0). cbn [bind fst snd]. pose proof (kl_one _ _ KL k (s_ss s) (V k c (or_introl eq_refl))) as O.
    destruct (k_is_one KO k (s_ss s)).
    + left. exists k, c. split; [reflexivity|]. split; [apply O; reflexivity|reflexivity].
    + right. split; [|reflexivity]. exists k, c. split; [left; reflexivity|]. intros X. apply O in X. discriminate.
  - right. right. split; [|reflexivity].
    destruct (list_eq_dec Z.eq_dec (ks_exps KS (len (s_ss s)) k) (repeat 0 (len (s_ss s)))) as [E|E].
    + exists k', c'. split; [right; left; reflexivity|]. intros E'. cbn [map fst] in N. inversion N; subst. apply H1. left.
      apply (kl_inj _ _ KL (len (s_ss s))); [eapply V; right; left; reflexivity|eapply V; left; reflexivity|congruence].
    + exists k, c. split; [left; reflexivity|exact E].
Qed.

(** ** Trimming *)
Local Notation occurs := (occurs KS).

Lemma trim_ok (x : series) : wf KO KS CO x -> exists r, series_trim KO CO PO TO x = Ok r /\ wf KO KS CO r /\
  (forall z, In z (s_ss r) <-> exists i, nth_error (s_ss x) i = Some z /\ occurs x i) /\ s_tag r = s_tag x /\ s_log2 r = 0%nat /\
  (forall us Q, nden KS CO us r Q = nden KS CO us x Q) /\ (len (terms r) <= len (terms x))%nat.
Proof.
  intros W. unfold series_trim.
  set (n := len (s_ss x)). pose proof (wf_valid _ _ _ _ W) as V. pose proof (wf_ss _ _ _ _ W) as SX.
  destruct (kl_trim_identify _ _ KL (s_ss x) (map fst (terms x))) as (v & Ev & Lv & Hv).
  { apply Forall_forall. intros k I. apply in_map_iff in I as ([k' c] & <- & I). apply (V k' c I). }
  assert (Ev' : rfold (fun v e => k_trim_identify KO v (fst e) (s_ss x)) (terms x) (repeat 1 n) = Ok v).
  { rewrite <- Ev. fold n. generalize (repeat 1 n) as w. clear. intros w. revert w. induction (terms x) as [|e l IH]; intros w; [reflexivity|].
    cbn [map rfold]. destruct (k_trim_identify KO w (fst e) (s_ss x)); cbn [bind]; auto. }
  rewrite Ev'. cbn [bind].
  destruct (trim_flags (s_ss x) v 0 Lv) as (FI & FS & FN). cbn zeta in FI, FS, FN. fold n in FI, FS, FN.
  set (si := map (fun p => fst (fst p)) (filter (fun p => negb (snd p =? 0)) (combine (combine (seq 0 n) (s_ss x)) v))) in *.
  rewrite FN. set (keep := fun i => nth (i - 0) v 0 =? 0). set (nss := select_from keep 0 (s_ss x)).
  assert (SN : sorted_set nss) by (apply sorted_select; exact SX).
  assert (OC : forall i, (i < n)%nat -> (nth i v 0 = 0 <-> occurs x i)).
  { intros i Hi. destruct (Hv i Hi) as [A B]. unfold occurs. fold n. split.
    - intros Z. destruct (first_bad (fun e : K * C => nth i (ks_exps KS n (fst e)) 0 = 0) (fun e => match Z.eq_dec (nth i (ks_exps KS n (fst e)) 0) 0 with left a => or_introl a | right b => or_intror b end) (terms x)) as [ALL|(l1 & [k c] & l2 & E & _ & BAD)].
      + exfalso. assert (nth i v 0 = 1); [|lia]. apply A. intros k I. apply in_map_iff in I as (e & <- & I). apply ALL. exact I.
      + exists k, c. split; [rewrite E; apply in_or_app; right; left; reflexivity|exact BAD].
    - intros (k & c & I & NZ). destruct B as [B|B]; [|exact B]. exfalso. apply NZ. apply (proj1 A B). apply in_map_iff. exists (k, c). auto. }
  assert (KEEP : forall i, (i < n)%nat -> keep i = negb (mem i si)).
  { intros i Hi. unfold keep. rewrite Nat.sub_0_r. apply eq_true_iff_eq. rewrite negb_true_iff, <- not_true_iff_false, mem_iff, FI, Nat.sub_0_r, Z.eqb_eq. split; [intros E [_ X]; contradiction|].
    intros H. destruct (Z.eq_dec (nth i v 0) 0); auto. elim H. split; [lia|assumption]. }
  assert (SB : forall y, In y si -> (y < n)%nat) by (intros y I; apply FI in I; lia).
  unfold set_symbol_set. change (series_empty (series_default TO)) with true. cbn iota. cbn [bind].
  unfold set_tag, get_s_size. cbn [s_tables s_log2 s_tag s_ss series_default].
  destruct (set_n_segments_ok KO KS CO (Series [[]] 0 (s_tag x) nss) 0) as [E0 W0]; [cbn; lia|exact SN|]. cbn [s_tag s_ss] in E0, W0.
  rewrite E0. cbn [bind]. set (r0 := Series (repeat [] (2 ^ 0)) 0 (s_tag x) nss) in *.
  set (stepK := fun e : K * C => k <- k_trim KO (fst e) si (s_ss x) ;; Ok (k, snd e)).
  set (stepS := fun (r : series) (e : K * C) => series_add_term KO CO PO true true true true false r (fst e) (snd e)).
  assert (NL : (n - len si)%nat = len nss).
  { change (len nss) with (len (select_from (fun i => nth (i - 0) v 0 =? 0) 0 (s_ss x))). rewrite <- FN. rewrite map_length. unfold si. rewrite map_length.
    set (fl := combine (combine (seq 0 n) (s_ss x)) v). assert (LF : len fl = n). { unfold fl. rewrite !combine_length, seq_length. unfold n. rewrite Lv. lia. }
    rewrite <- LF. clearbody fl. clear. induction fl as [|p fl IH]; [reflexivity|]. cbn [filter]. pose proof (filter_len (fun p : nat * string * Z => negb (snd p =? 0)) fl).
    destruct (snd p =? 0); cbn [negb List.length]; lia. }
  set (R := fun e e' : K * C => snd e' = snd e /\ ks_valid KS (len nss) (fst e') /\ ks_exps KS (len nss) (fst e') = select_from keep 0 (ks_exps KS n (fst e))).
  assert (SELK : forall k c, In (k, c) (terms x) -> select (fun i => negb (mem i si)) (ks_exps KS n k) = select_from keep 0 (ks_exps KS n k)).
  { intros k c I. rewrite select_eq. assert (LK : len (ks_exps KS n k) = n) by (apply (kl_len _ _ KL), (V k c I)).
    assert (G : forall (l : list Z) off, (forall j, (off <= j < off + len l)%nat -> keep j = negb (mem j si)) -> select_from (fun i => negb (mem i si)) off l = select_from keep off l).
    { induction l as [|z l IH]; intros off H; [reflexivity|]. rewrite !select_from_cons. cbn [List.length] in H. rewrite (H off) by lia. rewrite IH; [reflexivity|]. intros j Hj. apply H. lia. }
    apply G. intros j Hj. apply KEEP. lia. }
  destruct (rmap_ok stepK R (terms x)) as (l' & EM & F).
  { intros [k c] I. destruct (kl_trim _ _ KL k (s_ss x) si (V k c I) FS SB) as (r & Er & Vr & Xr). fold n in Vr, Xr. rewrite NL in Vr, Xr.
    unfold stepK. cbn [fst snd]. rewrite Er. cbn [bind]. exists (r, c). split; [reflexivity|]. split; [reflexivity|]. split; [exact Vr|]. cbn [fst]. rewrite Xr. apply (SELK k c I). }
  assert (EQL : forall l s, rfold (fun r e => k <- k_trim KO (fst e) si (s_ss x) ;; add_term KO CO PO true r k (snd e)) l s = rfold (fun r e => e' <- stepK e ;; stepS r e') l s).
  { induction l as [|e l IH]; intros s; [reflexivity|]. cbn [rfold]. unfold stepK at 1, stepS at 1. destruct (k_trim KO (fst e) si (s_ss x)); cbn [bind fst snd]; auto.
    unfold add_term. destruct (series_add_term KO CO PO true true true true false s a (snd e)); cbn [bind]; auto. }
  rewrite EQL, (rfold_pre stepK stepS _ _ _ EM).
  destruct (add_terms_ok KO KS CO PO KL CL (fun c => c) true true true true false l' r0 W0) as [(r & Er & Wr & (M1 & M2 & M3) & P & _ & L)|(_ & X & _)].
  - intros k c I. cbn [s_ss r0]. clear -F I. induction F as [|a b l l' r F IH]; [contradiction|]. destruct I as [->|I]; [apply r|auto].
  - intros [|]; discriminate.
  - discriminate.
  - auto.
  - exists r. split; [exact Er|]. split; [exact Wr|]. cbn [s_ss s_tag s_log2 r0] in M1, M2, M3. split; [|split; [exact M2|split; [exact M3|split]]].
    + intros z. rewrite M1. unfold nss.
      assert (G : forall (l : list string) off, In z (select_from keep off l) <-> exists i, nth_error l i = Some z /\ keep (off + i)%nat = true).
      { induction l as [|y l IH]; intros off; [split; [intros []|intros ([|i] & H & _); discriminate]|]. rewrite select_from_cons.
        assert (T : In z (select_from keep (S off) l) <-> exists i, nth_error (y :: l) (S i) = Some z /\ keep (off + S i)%nat = true).
        { rewrite IH. split; intros (i & H1 & H2); exists i; (split; [exact H1|]); [replace (off + S i)%nat with (S off + i)%nat by lia|replace (S off + i)%nat with (off + S i)%nat by lia]; exact H2. }
        destruct (keep off) eqn:Kf.
        - cbn [In]. rewrite T. split.
          + intros [->|(i & H1 & H2)]; [exists 0%nat; rewrite Nat.add_0_r; auto|exists (S i); auto].
          + intros ([|i] & H1 & H2); [cbn in H1; inversion H1; auto|right; exists i; auto].
        - rewrite T. split; [intros (i & H1 & H2); exists (S i); auto|].
          intros ([|i] & H1 & H2); [rewrite Nat.add_0_r in H2; congruence|exists i; auto]. }
      rewrite (G (s_ss x) 0%nat). split; intros (i & H1 & H2); exists i; (split; [exact H1|]);
        (assert (Hi : (i < n)%nat) by (apply nth_error_Some; congruence)); cbn [Nat.add] in *; unfold keep in *; rewrite Nat.sub_0_r in *.
      * apply OC; auto. apply Z.eqb_eq. exact H2.
      * apply Z.eqb_eq. apply OC; auto.
    + intros us Q. unfold nden, vden. rewrite P. change (terms r0) with (@nil (K * C)). rewrite psum_nil, M1, (psum_cv CO CL CO) by auto. cbn [sg].
      rewrite (Radd_0_l (cl_ring _ CL)). unfold psum. f_equal.
      assert (F2 : Forall2 (fun e e' : K * C => snd e' = snd e /\ ks_exps KS (len nss) (fst e') = select_from keep 0 (ks_exps KS n (fst e)) /\
         spread nss us (ks_exps KS (len nss) (fst e')) = spread (s_ss x) us (ks_exps KS n (fst e))) (terms x) l').
      { assert (G : forall l l', incl l (terms x) -> Forall2 R l l' -> Forall2 (fun e e' : K * C => snd e' = snd e /\ ks_exps KS (len nss) (fst e') = select_from keep 0 (ks_exps KS n (fst e)) /\
         spread nss us (ks_exps KS (len nss) (fst e')) = spread (s_ss x) us (ks_exps KS n (fst e))) l l').
        { intros l m I FF. induction FF as [|[k c] e' l m r1 FF IH]; constructor; [|apply IH; intros y Iy; apply I; right; exact Iy].
          destruct r1 as (r1 & r2 & r3). split; [exact r1|]. split; [exact r3|]. rewrite r3. unfold spread. apply map_ext. intros z.
          assert (Ik : In (k, c) (terms x)) by (apply I; left; reflexivity). unfold nss. apply expo_select; [apply sorted_set_nodup; exact SX|apply (kl_len _ _ KL), (V k c Ik)|].
          cbn [fst]. intros j Hj Kj. fold n in Hj. cbn [Nat.add] in Kj. destruct (Z.eq_dec (nth j (ks_exps KS n k) 0) 0) as [|NZ]; [assumption|]. exfalso.
          unfold keep in Kj. rewrite Nat.sub_0_r in Kj. apply Z.eqb_neq in Kj. apply Kj. apply OC; auto. exists k, c. auto. }
        apply G; [intros y Iy; exact Iy|exact F]. }
      unfold n in F2. clear -F2. induction F2 as [|a b l l' (r1 & r2 & r3) F IH]; [reflexivity|]. cbn [filter]. rewrite r3. destruct (Q _); cbn [map]; rewrite IH; congruence.
    + cbn in L. unfold cv in L. rewrite map_length in L. rewrite (Forall2_length _ _ _ F). exact L.
  - elim X. reflexivity.
Qed.

(** ** Adding symbols *)
Lemma add_symbols_ok (s : series) (ss : symbol_set) : wf KO KS CO s -> sorted_set ss -> Z.of_nat (len (s_ss s) + len ss) <= imax size_t ->
  (exists r, add_symbols KO CO PO TO s ss = Ok r /\ wf KO KS CO r /\ (forall z, In z (s_ss r) <-> In z (s_ss s) \/ In z ss) /\
     s_tag r = s_tag s /\ s_log2 r = s_log2 s /\ (forall us Q, nden KS CO us r Q = nden KS CO us s Q) /\ (len (terms r) <= len (terms s))%nat) \/
  ((add_symbols KO CO PO TO s ss = Throw overflow_error \/ add_symbols KO CO PO TO s ss = Throw safe_cast_failure) /\
   ((exists u, sorted_set u /\ (forall z, In z u <-> In z (s_ss s) \/ In z ss) /\ unrep KS u s) \/ full (s_log2 s) (len (terms s)))).
Proof.
  intros W SS SZ. unfold add_symbols.
  destruct (merge_symbol_sets_exact (s_ss s) ss (wf_ss _ _ _ _ W) SS SZ) as (u & mx & my & EM & SU & IU & IX & IY & MX & MY & _).
  rewrite EM. cbn [bind]. assert (CX' : incl (s_ss s) u) by (intros z Iz; apply IU; auto).
  destruct mx as [|p1 mx'] eqn:Emx; cbn [map_empty].
  - left. exists s. assert (BX : s_ss s = u) by exact (eq_trans (eq_sym (insert_nil _ 0)) IX). split; [reflexivity|]. split; [exact W|]. split; [rewrite BX; rewrite BX in IU; exact IU|]. repeat split; auto.
  - rewrite <- Emx in *. destruct (extend_ok KO KS CO CO PO TO KL CL (fun c => c) eq_refl (fun _ _ => eq_refl) (s_tag s) true s mx u W MX IX SU (or_introl eq_refl)) as [(a & Ea & Wa & Sa & Ta & La & Da & Na)|[E H]].
    + left. exists a. split; [exact Ea|]. split; [exact Wa|]. split; [rewrite Sa; exact IU|]. split; [exact Ta|]. split; [exact La|]. split; [|exact Na].
      intros us Q. rewrite <- (vden_spread KS CO u us s Q CX'). rewrite <- (Da (fun v => Q (spread u us v))). unfold nden. rewrite Sa. reflexivity.
    + right. split; [exact E|]. destruct H as [H|H]; [left; exists u; auto|right; exact H].
Qed.
End P6.
