(** Property C77: trimming of polynomials with polynomial coefficients.  Vocabulary: RecSpec.v, SeriesSpec.v ([occurs x i]: the i-th symbol of x has a nonzero exponent in some term). *)
From Coq Require Import ZArith List Bool String Arith Lia Permutation Sorted Ring Ring_theory.
From Verif Require Import Base IntModel KpackModel KpackSpec KpackProofs P_Kpack SymSpec SymModel SymProofs P_Sym PMonSpec PMonModel PMonProofs PMonProofs2 P_PMon KeyOps KeyInst SeriesModel SeriesModel2 SeriesSpec PolyModel PolyModel2 PolySpec PolyProofs PolyProofs2
  SeriesProofs SeriesProofs2 SeriesProofs3 SeriesProofs4 SeriesProofs5 SeriesProofs6 SeriesProofs7 SeriesEval CfInst P_Series P_Series2 P_Poly P_Poly2 PolyProofs5 PolyProofs6 PolyProofs7 LfSpec LfProofs LfProofs2 LfProofs3 LfProofs4 P_Lf RecModel RecModel4 RecSpec RecProofs P_Rec.
Import ListNotations.
Open Scope Z_scope.
Open Scope res_scope.
Local Notation len := List.length.

(** What the keys of a trimmed series are. *)
Section Keys.
Context {K C Tag : Type} (KO : key_ops K) (KS : key_sem K) (CO : cf_ops C).
Context (KL : key_laws KO KS).
Notation series := (series K C Tag).
Local Notation occurs := (occurs KS).
Lemma trim_keys (x : series) : wf KO KS CO x -> exists v, rfold (fun v e => k_trim_identify KO v (fst e) (s_ss x)) (terms x) (repeat 1 (len (s_ss x))) = Ok v /\
  let flags := combine (combine (seq 0 (len (s_ss x))) (s_ss x)) v in
  let si := map (fun p => fst (fst p)) (filter (fun p => negb (snd p =? 0)) flags) in
  let nss := map (fun p => snd (fst p)) (filter (fun p => snd p =? 0) flags) in
  sorted_set nss /\ (forall z, In z nss <-> exists i, nth_error (s_ss x) i = Some z /\ occurs x i) /\
  forall k c, In (k, c) (terms x) -> exists k', k_trim KO k si (s_ss x) = Ok k' /\ ks_valid KS (len nss) k' /\ forall us, spread nss us (ks_exps KS (len nss) k') = spread (s_ss x) us (ks_exps KS (len (s_ss x)) k).
Proof.
  intros W. set (n := len (s_ss x)). pose proof (wf_valid _ _ _ _ W) as V. pose proof (wf_ss _ _ _ _ W) as SX.
  destruct (kl_trim_identify _ _ KL (s_ss x) (map fst (terms x))) as (v & Ev & Lv & Hv).
  { apply Forall_forall. intros k I. apply in_map_iff in I as ([k' c] & <- & I). apply (V k' c I). }
  exists v. split. { rewrite <- Ev. fold n. generalize (repeat 1 n) as w. clear. intros w. revert w. induction (terms x) as [|e l IH]; intros w; [reflexivity|]. cbn [map rfold]. destruct (k_trim_identify KO w (fst e) (s_ss x)); cbn [bind]; auto. }
  destruct (trim_flags (s_ss x) v 0 Lv) as (FI & FS & FN). cbn zeta in FI, FS, FN. cbv zeta. fold n in FI, FS, FN. fold n.
  set (si := map (fun p => fst (fst p)) (filter (fun p => negb (snd p =? 0)) (combine (combine (seq 0 n) (s_ss x)) v))) in *.
  rewrite FN. set (keep := fun i => nth (i - 0) v 0 =? 0). set (nss := select_from keep 0 (s_ss x)).
  assert (SN : sorted_set nss) by (apply sorted_select; exact SX).
  assert (OC : forall i, (i < n)%nat -> (nth i v 0 = 0 <-> occurs x i)).
  { intros i Hi. destruct (Hv i Hi) as [A B]. unfold SeriesSpec.occurs. fold n. split.
    - intros Z. destruct (first_bad (fun e : K * C => nth i (ks_exps KS n (fst e)) 0 = 0) (fun e => match Z.eq_dec (nth i (ks_exps KS n (fst e)) 0) 0 with left a => or_introl a | right b => or_intror b end) (terms x)) as [ALL|(l1 & [k c] & l2 & E & _ & BAD)].
      + exfalso. assert (nth i v 0 = 1); [|lia]. apply A. intros k I. apply in_map_iff in I as (e & <- & I). apply ALL. exact I.
      + exists k, c. split; [rewrite E; apply in_or_app; right; left; reflexivity|exact BAD].
    - intros (k & c & I & NZ). destruct B as [B|B]; [|exact B]. exfalso. apply NZ. apply (proj1 A B). apply in_map_iff. exists (k, c). auto. }
  assert (KEEP : forall i, (i < n)%nat -> keep i = negb (mem i si)).
  { intros i Hi. unfold keep. rewrite Nat.sub_0_r. apply eq_true_iff_eq. rewrite negb_true_iff, <- not_true_iff_false, mem_iff, FI, Nat.sub_0_r, Z.eqb_eq. split; [intros E [_ X]; contradiction|].
    intros H. destruct (Z.eq_dec (nth i v 0) 0); auto. elim H. split; [lia|assumption]. }
  assert (SB : forall y, In y si -> (y < n)%nat) by (intros y I; apply FI in I; lia).
  assert (NL : (n - len si)%nat = len nss).
  { change (len nss) with (len (select_from (fun i => nth (i - 0) v 0 =? 0) 0 (s_ss x))). rewrite <- FN. rewrite map_length. unfold si. rewrite map_length.
    set (fl := combine (combine (seq 0 n) (s_ss x)) v). assert (LF : len fl = n). { unfold fl. rewrite !combine_length, seq_length. unfold n. rewrite Lv. lia. }
    rewrite <- LF. clearbody fl. clear. induction fl as [|p fl IH]; [reflexivity|]. cbn [filter]. pose proof (filter_len (fun p : nat * string * Z => negb (snd p =? 0)) fl).
    destruct (snd p =? 0); cbn [negb List.length]; lia. }
  assert (SELK : forall k c, In (k, c) (terms x) -> select (fun i => negb (mem i si)) (ks_exps KS n k) = select_from keep 0 (ks_exps KS n k)).
  { intros k c I. rewrite select_eq. assert (LK : len (ks_exps KS n k) = n) by (apply (kl_len _ _ KL), (V k c I)).
    assert (G : forall (l : list Z) off, (forall j, (off <= j < off + len l)%nat -> keep j = negb (mem j si)) -> select_from (fun i => negb (mem i si)) off l = select_from keep off l).
    { induction l as [|z l IH]; intros off H; [reflexivity|]. rewrite !select_from_cons. cbn [List.length] in H. rewrite (H off) by lia. rewrite IH; [reflexivity|]. intros j Hj. apply H. lia. }
    apply G. intros j Hj. apply KEEP. lia. }
  split; [exact SN|]. split.
  - intros z. unfold nss.
    assert (G : forall (l : list string) off, In z (select_from keep off l) <-> exists i, nth_error l i = Some z /\ keep (off + i)%nat = true).
    { induction l as [|y l IH]; intros off; [split; [intros []|intros ([|i] & H & _); discriminate]|]. rewrite select_from_cons.
      assert (T : In z (select_from keep (S off) l) <-> exists i, nth_error (y :: l) (S i) = Some z /\ keep (off + S i)%nat = true).
      { rewrite IH. split; intros (i & H1 & H2); exists i; (split; [exact H1|]); [replace (off + S i)%nat with (S off + i)%nat by lia|replace (S off + i)%nat with (off + S i)%nat by lia]; exact H2. }
      destruct (keep off) eqn:Kf.
      - cbn [In]. rewrite T. split.
        + intros [->|(i & H1 & H2)]; [exists 0%nat; rewrite Nat.add_0_r; auto|exists (S i); auto].
        + intros ([|i] & H1 & H2); [cbn in H1; inversion H1; auto|right; exists i; auto].
      - rewrite T. split; [intros (i & H1 & H2); exists (S i); auto|].
        intros ([|i] & H1 & H2); [rewrite Nat.add_0_r in H2; congruence|exists i; auto]. }
    rewrite (G (s_ss x) 0%nat). split; intros (i & H1 & H2); exists i; (split; [exact H1|]);
      (assert (Hi : (i < n)%nat) by (apply nth_error_Some; congruence)); cbn [Nat.add] in *; unfold keep in *; rewrite Nat.sub_0_r in *.
    + apply OC; auto. apply Z.eqb_eq. exact H2.
    + apply Z.eqb_eq. apply OC; auto.
  - intros k c I. destruct (kl_trim _ _ KL k (s_ss x) si (V k c I) FS SB) as (r & Er & Vr & Xr). fold n in Vr, Xr. rewrite NL in Vr, Xr. exists r. split; [exact Er|]. split; [exact Vr|]. intros us. rewrite Xr, (SELK k c I).
    unfold spread. apply map_ext. intros z. unfold nss. apply expo_select; [apply sorted_set_nodup; exact SX|apply (kl_len _ _ KL), (V k c I)|].
    intros j Hj Kj. fold n in Hj. cbn [Nat.add] in Kj. destruct (Z.eq_dec (nth j (ks_exps KS n k) 0) 0) as [|NZ]; [assumption|]. exfalso.
    unfold keep in Kj. rewrite Nat.sub_0_r in Kj. apply Z.eqb_neq in Kj. apply Kj. apply OC; auto. exists k, c. auto.
Qed.
End Keys.

Section T.
Context {K Tag KI C TagI : Type} (KO : key_ops K) (KS : key_sem K) (TO : tag_ops Tag)
  (KOI : key_ops KI) (KSI : key_sem KI) (CO : cf_ops C) (POI : tbl_policy (KI * C)) (TOI : tag_ops TagI) (EI : mul_env KI C TagI) (PO : tbl_policy (K * res (series KI C TagI))).
Hypothesis KL : key_laws KO KS.
Hypothesis KLI : key_laws KOI KSI.
Hypothesis CL : cf_laws CO.
Notation inner := (series KI C TagI).
Notation outer := (series K (res inner) Tag).
Notation RC := (rec_cf KOI CO POI TOI EI).
Notation RWF := (rwf KO KS RC KOI KSI CO).
Notation coef2 := (coef2 KS KSI CO).
Notation g := (g KSI CO).
Notation rec_trim := (rec_trim KO TO KOI CO POI TOI EI PO).
Notation cf_trim := (cf_trim KOI CO POI TOI).
Notation exps x k := (ks_exps KS (len (s_ss x)) k).
Variable U : symbol_set.

Lemma cf_trim_ok (q : inner) : wf KOI KSI CO q -> incl (s_ss q) U -> exists t, cf_trim (Ok q) = Ok t /\ wf KOI KSI CO t /\ incl (s_ss t) (s_ss q) /\ (forall i, (i < len (s_ss t))%nat -> occurs KSI t i) /\ (forall vs ts, coef KSI CO vs t ts = coef KSI CO vs q ts) /\ series_empty t = series_empty q.
Proof.
  intros W I. destruct (trim_exact_partial KOI KSI CO POI TOI KLI CL q W) as (t & E & WT & _ & Z & HC & t' & E' & S' & _). exists t. split; [exact E|]. split; [exact WT|]. split; [intros z J; apply Z in J as (i & Ei & _); eapply nth_error_In; eauto|].
  destruct (trim_exact_partial KOI KSI CO POI TOI KLI CL t WT) as (t2 & E2 & WT2 & _ & Z2 & _). assert (t2 = t') by congruence. subst t2. split; [|split; [exact HC|]].
  - intros i Hi. destruct (nth_error (s_ss t) i) as [z|] eqn:Ez; [|apply nth_error_None in Ez; lia]. assert (J : In z (s_ss t')) by (rewrite S'; eapply nth_error_In; eauto). apply Z2 in J as (j & Ej & O). assert (i = j) as ->; [|exact O].
    eapply (NoDup_nth_error (s_ss t)); [apply sorted_set_nodup, (wf_ss _ _ _ _ WT)|exact Hi|congruence].
  - assert (IF : incl (s_ss t) (s_ss q)) by (intros z J; apply Z in J as (i & Ei & _); eapply nth_error_In; eauto).
    assert (CQ : covers (s_ss q) q) by (split; [apply (wf_ss _ _ _ _ W)|apply incl_refl]). assert (CT : covers (s_ss q) t) by (split; [apply (wf_ss _ _ _ _ W)|exact IF]).
    assert (NZ : (terms t = [] <-> terms q = [])).
    { split; intros E0.
      - destruct (terms q) as [|[k c] l] eqn:ET; [reflexivity|]. assert (J : In (k, c) (terms q)) by (rewrite ET; left; reflexivity). exfalso. apply (wf_nonzero _ _ _ _ W k c J). rewrite <- (coef_term KOI KSI CO KLI CL (s_ss q) q k c W CQ J), <- HC. apply (coef_zero KSI CO CL). rewrite E0. intros ? ? [].
      - destruct (terms t) as [|[k c] l] eqn:ET; [reflexivity|]. assert (J : In (k, c) (terms t)) by (rewrite ET; left; reflexivity). exfalso. apply (wf_nonzero _ _ _ _ WT k c J). rewrite <- (coef_term KOI KSI CO KLI CL (s_ss q) t k c WT CT J), HC. apply (coef_zero KSI CO CL). rewrite E0. intros ? ? []. }
    apply eq_true_iff_eq. rewrite !empty_terms. exact NZ.
Qed.

(** C77. Trimming keeps the polynomial, removes exactly the unused symbols of the keys, and leaves every coefficient with the symbols it uses; it never throws. *)
Theorem rec_trim_exact : forall x : outer, RWF U x -> exists r, rec_trim x = Ok r /\ RWF U r /\ s_tag r = s_tag x /\ len (terms r) = len (terms x) /\
  (forall z, In z (s_ss r) <-> exists i, nth_error (s_ss x) i = Some z /\ occurs KS x i) /\
  (forall k q, In (k, Ok q) (terms r) -> forall i, (i < len (s_ss q))%nat -> occurs KSI q i) /\
  (forall us vs ws ts, incl (s_ss x) us -> coef2 us vs r ws ts = coef2 us vs x ws ts).
Proof.
  intros x W. pose proof (lw_wf _ _ _ _ (rw_lwf _ _ _ _ _ _ _ _ W)) as W0. pose proof (lw_nonzero _ _ _ _ (rw_lwf _ _ _ _ _ _ _ _ W)) as NZ. destruct (trim_keys KO KS RC KL x W0) as (v & Ev & H). cbv zeta in H.
  unfold RecModel4.rec_trim. cbv zeta. rewrite Ev. cbn [bind].
  set (flags := combine (combine (seq 0 (len (s_ss x))) (s_ss x)) v) in *. set (si := map (fun p => fst (fst p)) (filter (fun p => negb (snd p =? 0)) flags)) in *. set (nss := map (fun p => snd (fst p)) (filter (fun p => snd p =? 0) flags)) in *.
  destruct H as (SN & ZN & KT). unfold set_symbol_set. change (series_empty (series_default TO)) with true. cbn iota. cbn [bind]. unfold set_tag, get_s_size. cbn [s_tables s_log2 s_tag s_ss series_default].
  destruct (set_n_segments_ok KO KS RC (Series [[]] 0 (s_tag x) nss) 0) as [E0 WW]; [cbn; lia|exact SN|]. cbn [s_tag s_ss] in E0, WW. rewrite E0. cbn [bind]. set (r0 := Series (repeat [] (2 ^ 0)) 0 (s_tag x) nss : outer) in *.
  assert (LW0 : lwf KO KS RC r0) by (constructor; [exact WW|intros k c []]).
  set (stepK := fun e : K * res inner => k <- k_trim KO (fst e) si (s_ss x) ;; Ok (k, cf_trim (snd e))).
  set (stepS := fun (r : outer) (e : K * res inner) => series_add_term KO RC PO true true true true false r (fst e) (snd e)).
  set (R := fun e e' : K * res inner => snd e' = cf_trim (snd e) /\ ks_valid KS (len nss) (fst e') /\ forall us, spread nss us (ks_exps KS (len nss) (fst e')) = spread (s_ss x) us (exps x (fst e))).
  destruct (rmap_ok stepK R (terms x)) as (L & EM & F).
  { intros [k c] I. destruct (KT k c I) as (k' & Ek & Vk & Sk). unfold stepK. cbn [fst snd]. rewrite Ek. cbn [bind]. exists (k', cf_trim c). split; [reflexivity|]. split; [reflexivity|]. split; [exact Vk|exact Sk]. }
  assert (EQL : forall l s, rfold (fun r e => k <- k_trim KO (fst e) si (s_ss x) ;; add_term KO RC PO true r k (cf_trim (snd e))) l s = rfold (fun r e => e' <- stepK e ;; stepS r e') l s).
  { induction l as [|e l IH]; intros s; [reflexivity|]. cbn [rfold]. unfold stepK at 1, stepS at 1. destruct (k_trim KO (fst e) si (s_ss x)); cbn [bind fst snd]; auto.
    unfold add_term. destruct (series_add_term KO RC PO true true true true false s a (cf_trim (snd e))); cbn [bind]; auto. }
  rewrite EQL, (rfold_pre stepK stepS _ _ _ EM).
  assert (FL : forall e', In e' L -> exists e, In e (terms x) /\ R e e'). { clear -F. induction F as [|a b l l' r F IH]; intros e' I; [destruct I|]. destruct I as [<-|I]; [exists a; split; [left; reflexivity|exact r]|]. destruct (IH e' I) as (e & J & RR). exists e. split; [right; exact J|exact RR]. }
  assert (FR : forall e, In e (terms x) -> exists e', In e' L /\ R e e'). { clear -F. induction F as [|a b l l' r F IH]; intros e' I; [destruct I|]. destruct I as [<-|I]; [exists b; split; [left; reflexivity|exact r]|]. destruct (IH e' I) as (e & J & RR). exists e. split; [right; exact J|exact RR]. }
  assert (SELF : forall k c, In (k, c) (terms x) -> spread (s_ss x) (s_ss x) (exps x k) = exps x k) by (intros k c J; apply spread_self; [apply sorted_set_nodup, (wf_ss _ _ _ _ W0)|apply (kl_len _ _ KL), (wf_valid _ _ _ _ W0 k c J)]).
  assert (ND : NoDup (map fst L)).
  { pose proof (wf_keys _ _ _ _ W0) as NK. assert (G : forall l l', incl l (terms x) -> Forall2 R l l' -> NoDup (map fst l) -> NoDup (map fst l')).
    { intros l l' IL FF. induction FF as [|[k c] [k' c'] l l' (R1 & R2 & R3) FF IH]; intros N; [constructor|]. cbn [map fst] in *. inversion N as [|? ? NI N']; subst. constructor; [|apply IH; auto; intros z Iz; apply IL; right; exact Iz].
      intros J. apply in_map_iff in J as ([k2 c2] & Ek & J). cbn [fst] in Ek. subst k2. assert (exists e, In e l /\ R e (k', c2)) as ([k3 c3] & J3 & (_ & _ & R3')).
      { clear -FF J. induction FF as [|a b l l' r F IH]; [destruct J|]. destruct J as [->|J]; [exists a; split; [left; reflexivity|exact r]|]. destruct (IH J) as (e & J' & RR). exists e. split; [right; exact J'|exact RR]. }
      apply NI. apply in_map_iff. exists (k3, c3). split; [|exact J3]. cbn [fst] in *. assert (J1 : In (k3, c3) (terms x)) by (apply IL; right; exact J3). assert (J2 : In (k, c) (terms x)) by (apply IL; left; reflexivity).
      apply (kl_inj _ _ KL (len (s_ss x))); [eapply wf_valid; eauto|eapply wf_valid; eauto|]. rewrite <- (SELF _ _ J1), <- (SELF _ _ J2), <- R3, <- R3'. reflexivity. }
    apply (G (terms x) L); auto using incl_refl. }
  destruct (add_terms_lf KO KS RC PO KL (rec_light KOI CO POI TOI EI) true true true false L r0 LW0) as [(r & Er & LWr & (M1 & M2 & M3) & SG & LL)|(_ & X & _)]; [|exact ND|discriminate|auto| |elim X; reflexivity].
  { intros k c I. cbn [s_ss r0]. destruct (FL _ I) as (e & _ & _ & Vk & _). exact Vk. }
  cbn [s_ss s_tag s_log2 r0] in M1, M2, M3. pose proof (lw_wf _ _ _ _ LWr) as Wr.
  assert (TC : forall k c, In (k, c) (terms x) -> exists q t, c = Ok q /\ cf_trim c = Ok t /\ wf KOI KSI CO q /\ wf KOI KSI CO t /\ incl (s_ss t) U /\ (forall i, (i < len (s_ss t))%nat -> occurs KSI t i) /\ (forall vs ts, g vs ts (cf_trim c) = g vs ts c) /\ c_is_zero RC (cf_trim c) = false).
  { intros k c I. destruct (rw_inner _ _ _ _ _ _ _ _ W k c I) as (q & -> & WQ & IQ). destruct (cf_trim_ok q WQ IQ) as (t & Et & WT & IT & OT & HT & ET). exists q, t. split; [reflexivity|]. split; [exact Et|]. split; [exact WQ|]. split; [exact WT|]. split; [eapply incl_tran; eauto|]. split; [exact OT|].
    split; [intros vs ts; rewrite Et; exact (HT vs ts)|]. rewrite Et. cbn [c_is_zero rec_cf]. rewrite ET. exact (NZ k _ I). }
  assert (TR : forall k c, In (k, c) (terms r) <-> In (k, c) L).
  { intros k c. rewrite <- (sget_in KO KS RC KL r k c Wr), SG. change (sget KO r0 k) with (@None (res inner)). assert (TI : tget KO L k = Some c <-> In (k, c) L) by (apply (tget_in KO KS KL); exact ND). rewrite <- TI.
    destruct (tget KO L k) as [d|] eqn:ED; cbn [merged]; [|tauto]. unfold nonzero. assert (JD : In (k, d) L) by (apply (tget_in KO KS KL); auto). destruct (FL _ JD) as ([k0 c0] & J0 & (E1 & _)). cbn [snd] in E1. destruct (TC k0 c0 J0) as (q & t & _ & _ & _ & _ & _ & _ & _ & ZZ). rewrite <- E1 in ZZ. rewrite ZZ. tauto. }
  exists r. split; [exact Er|]. split; [|split; [exact M2|split; [|split; [|split]]]].
  - constructor; [exact LWr|]. intros k c I. apply TR, FL in I as ([k0 c0] & J0 & (E1 & _)). cbn [snd] in E1. destruct (TC k0 c0 J0) as (q & t & _ & Et & _ & WT & IT & _). exists t. split; [congruence|]. auto.
  - apply Nat.le_antisymm; [change (len (terms r0)) with 0%nat in LL; rewrite (Forall2_length _ _ _ F); exact LL|]. rewrite (Forall2_length _ _ _ F). apply NoDup_incl_length; [eapply NoDup_map_inv; exact ND|]. intros [k c] I. apply TR. exact I.
  - intros z. rewrite M1. apply ZN.
  - intros k t I. apply TR, FL in I as ([k0 c0] & J0 & (E1 & _)). cbn [snd] in E1. destruct (TC k0 c0 J0) as (q & t' & _ & Et & _ & _ & _ & O & _). assert (t' = t) by congruence. subst t'. exact O.
  - intros us vs ws ts IU. assert (IR : incl (s_ss r) us) by (rewrite M1; intros z J; apply ZN in J as (i & Ei & _); apply IU; eapply nth_error_In; eauto).
    rewrite (coef2_entry KO KS KOI KSI CO POI TOI EI KL CL us vs r ws ts Wr IR), (coef2_entry KO KS KOI KSI CO POI TOI EI KL CL us vs x ws ts W0 IU).
    destruct (entry KS us x ws) as [c|] eqn:EX.
    + apply (entry_in KO KS RC KL us x ws c W0 IU) in EX as (k & I & SP). destruct (FR _ I) as ([k' c'] & I' & (E1 & V1 & S1)). cbn [fst snd] in *. destruct (TC k c I) as (q & t & _ & _ & _ & _ & _ & _ & HG & _).
      assert (ER : entry KS us r ws = Some (cf_trim c)). { apply (entry_in KO KS RC KL us r ws _ Wr IR). exists k'. split; [apply TR; rewrite <- E1; exact I'|]. rewrite M1, S1. exact SP. }
      rewrite ER. apply HG.
    + destruct (entry KS us r ws) as [c|] eqn:ER; [|reflexivity]. exfalso. apply (entry_in KO KS RC KL us r ws c Wr IR) in ER as (k & I & SP). apply TR, FL in I as ([k0 c0] & J0 & (_ & _ & S1)). cbn [fst] in S1. rewrite M1, S1 in SP.
      assert (X : entry KS us x ws = Some c0) by (apply (entry_in KO KS RC KL us x ws c0 W0 IU); eauto). congruence.
Qed.
End T.
Print Assumptions rec_trim_exact.

(** * The hypotheses are met: (x + 5) a + (x - 3) c^2, stored with the unused symbols b (keys) and y (one coefficient) *)
Definition rt := get dR (exR ["a"; "b"; "c"]%string 2 [([1; 0; 0], (xy, [([1; 0], 1); ([0; 0], 5)])); ([0; 0; 2], (["x"]%string, [([1], 1); ([0], -3)]))]).
Definition i5 := exs 0 xy 0 [([1; 0], 1); ([0; 0], 5)].
Example rt_rwf : rwf exK exS rC exK exS Z_cf xy rt.
Proof.
  constructor.
  - apply (exR_lwf ["a"; "b"; "c"]%string 2 [([1; 0; 0], (xy, [([1; 0], 1); ([0; 0], 5)])); ([0; 0; 2], (["x"]%string, [([1], 1); ([0], -3)]))]); [repeat constructor|lia|reflexivity|vm_compute; reflexivity].
  - assert (T : map snd (terms rt) = [i5; i2] \/ map snd (terms rt) = [i2; i5]) by (vm_compute; auto). intros k c I. apply (in_map snd) in I. cbn [snd] in I.
    assert (O : c = i5 \/ c = i2) by (destruct T as [T|T]; rewrite T in I; destruct I as [<-|[<-|[]]]; auto). destruct O as [->| ->]; [|apply inner_ok; right; left; reflexivity].
    assert (G : forall c0, is_ok c0 = true -> c0 = i5 -> exists s, c0 = Ok s /\ wf exK exS Z_cf s /\ incl (s_ss s) xy).
    { intros c0 K0 E. destruct c0 as [s| |]; [|discriminate K0|discriminate K0]. exists s. destruct (inner_wf xy [([1; 0], 1); ([0; 0], 5)] s ltac:(repeat constructor) ltac:(vm_compute; reflexivity) (eq_sym E)) as [A B]. split; [reflexivity|]. split; [exact A|]. rewrite B. apply incl_refl. }
    apply G; [vm_compute; reflexivity|reflexivity].
Qed.
Example ex_rec_trim : exists r, rec_trim exK Z_tag exK Z_cf exP Z_tag rI rP rt = Ok r /\ s_ss r = ["a"; "c"]%string /\
  (forall e, In e (terms r) -> exists q, snd e = Ok q /\ s_ss q = ["x"]%string) /\
  coef2 exS exS Z_cf ["a"; "b"; "c"]%string xy r [1; 0; 0] [0; 0] = 5 /\ coef2 exS exS Z_cf ["a"; "b"; "c"]%string xy r [0; 0; 2] [0; 0] = -3.
Proof.
  exists (get dR (rec_trim exK Z_tag exK Z_cf exP Z_tag rI rP rt)). split; [vm_compute; reflexivity|]. split; [vm_compute; reflexivity|]. split; [|split; vm_compute; reflexivity].
  assert (B : forallb (fun e => match snd e with Ok q => ss_eqb (s_ss q) ["x"]%string | _ => false end) (terms (get dR (rec_trim exK Z_tag exK Z_cf exP Z_tag rI rP rt))) = true) by (vm_compute; reflexivity).
  revert B. generalize (get dR (rec_trim exK Z_tag exK Z_cf exP Z_tag rI rP rt)). intros R B e I. rewrite forallb_forall in B. specialize (B _ I). destruct (snd e) as [q| |]; [|discriminate B|discriminate B]. exists q. split; [reflexivity|]. apply ss_eqb_iff. exact B.
Qed.
