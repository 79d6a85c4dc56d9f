From Coq Require Import ZArith List Bool String Lia Sorted.
From Verif Require Import Base KpackTables KpackModel KpackSpec KpackProofs IntModel IntSpec IntProofs
  SymModel SymSpec SymProofs PMonModel PMonSpec PMonProofs.
Import ListNotations.
Open Scope Z_scope.

(** * Symbol merging *)
Lemma push_zeros D (syms : list string) : forall kp,
  rfold (fun kp (_ : string) => kpacker_push D kp 0) syms kp = kpacker_push_all D kp (map (fun _ => 0) syms).
Proof.
  unfold kpacker_push_all. induction syms as [|x syms IH]; intros kp; [reflexivity|].
  cbn [rfold map]. destruct (kpacker_push D kp 0); cbn [bind]; auto.
Qed.

Lemma ins_at_cons_ne {A} j (x : list A) m i : i <> j -> ins_at ((j, x) :: m) i = ins_at m i.
Proof. intros H. unfold ins_at. cbn [find fst]. destruct (Nat.eqb_spec j i); [congruence|reflexivity]. Qed.
Lemma ins_at_cons_eq {A} j (x : list A) m : ins_at ((j, x) :: m) j = x.
Proof. unfold ins_at. cbn [find fst]. rewrite Nat.eqb_refl. reflexivity. Qed.
Lemma ins_at_none {A} (m : list (nat * list A)) i : (forall j, In j (map fst m) -> (i < j)%nat) -> ins_at m i = [].
Proof.
  intros H. unfold ins_at. induction m as [|[j x] m IH]; [reflexivity|]. cbn [find fst].
  destruct (Nat.eqb_spec j i). { subst. specialize (H i (or_introl eq_refl)). lia. }
  apply IH. intros q Q. apply H. right. exact Q.
Qed.

Lemma merge_loop_ok D : forall vs u i (m : list (nat * list string)) kp,
  kunpacker_pops D (List.length vs) u = Ok vs ->
  StronglySorted lt (map fst m) -> (forall j, In j (map fst m) -> (i <= j <= i + List.length vs)%nat) ->
  pm_merge_loop D (List.length vs) i u m kp =
  kpacker_push_all D kp (insert_all (fun j => map (fun _ => 0) (ins_at m j)) i vs).
Proof.
  induction vs as [|v vs IH]; intros u i m kp P S H.
  - cbn [List.length pm_merge_loop insert_all]. destruct m as [|[j syms] m]; [reflexivity|].
    assert (j = i). { specialize (H j (or_introl eq_refl)). cbn [List.length] in H. lia. } subst j.
    rewrite ins_at_cons_eq. apply push_zeros.
  - cbn [List.length kunpacker_pops] in P.
    destruct (kunpacker_pop D u) as [[v0 u']| |] eqn:E; cbn [bind] in P; try discriminate.
    destruct (kunpacker_pops D (List.length vs) u') as [ws| |] eqn:E2; cbn [bind] in P; try discriminate.
    inversion P; subst v0 ws.
    cbn [List.length pm_merge_loop insert_all]. rewrite E. cbn [List.length] in H.
    destruct m as [|[j syms] m].
    + cbn [bind map app ins_at find]. unfold kpacker_push_all at 1. cbn [rfold].
      destruct (kpacker_push D kp v); cbn [bind]; auto. rewrite IH; auto. intros j [].
    + cbn [map fst] in S, H. pose proof (sorted_gt _ _ S) as [S' Hj].
      destruct (Nat.eqb_spec j i) as [->|Hne].
      * rewrite ins_at_cons_eq, push_all_app, <- push_zeros.
        destruct (rfold _ syms kp) as [kp1| |]; cbn [bind]; auto.
        unfold kpacker_push_all. cbn [rfold]. destruct (kpacker_push D kp1 v) as [kp2| |]; cbn [bind]; auto.
        rewrite IH; auto.
        -- unfold kpacker_push_all. f_equal. apply insert_all_ext. intros q Hq. rewrite ins_at_cons_ne by lia. reflexivity.
        -- intros q Hq. specialize (Hj _ Hq). specialize (H _ (or_intror Hq)). lia.
      * assert (i < j)%nat by (specialize (H j (or_introl eq_refl)); lia).
        rewrite ins_at_none by (intros q [<-|Hq]; [exact H0|specialize (Hj _ Hq); lia]).
        cbn [bind map app]. unfold kpacker_push_all at 1. cbn [rfold].
        destruct (kpacker_push D kp v) as [kp2| |]; cbn [bind]; auto. rewrite IH; auto.
        intros q Hq. pose proof (H _ Hq). destruct Hq as [<-|Hq]; [cbn [fst] in *; lia|]. specialize (Hj _ Hq). lia.
Qed.

Lemma insert_all_len {A} (m : list (nat * list string)) (f : string -> A) : forall (l : list A) i,
  StronglySorted lt (map fst m) -> (forall j, In j (map fst m) -> (i <= j <= i + List.length l)%nat) ->
  List.length (insert_all (fun j => map f (ins_at m j)) i l) =
  (List.length l + List.length (List.concat (map snd m)))%nat.
Proof.
  intros l. revert m. induction l as [|x l IH]; intros m i S H.
  - cbn [insert_all List.length]. rewrite map_length. destruct m as [|[j syms] m]; [reflexivity|].
    assert (j = i). { specialize (H j (or_introl eq_refl)). cbn [List.length] in H. lia. } subst j.
    rewrite ins_at_cons_eq. destruct m as [|[k s2] m].
    + cbn [map snd List.concat]. rewrite app_nil_r. reflexivity.
    + exfalso. cbn [map fst] in S, H. pose proof (sorted_gt _ _ S) as [_ Hj].
      specialize (Hj k (or_introl eq_refl)). specialize (H k (or_intror (or_introl eq_refl))). cbn [List.length] in H. lia.
  - cbn [insert_all]. rewrite app_length, map_length. cbn [List.length].
    destruct m as [|[j syms] m].
    + rewrite (IH [] (Datatypes.S i)); [cbn; lia|constructor|intros j []].
    + cbn [map fst] in S, H. pose proof (sorted_gt _ _ S) as [S' Hj].
      destruct (Nat.eqb_spec j i) as [->|Hne].
      * rewrite ins_at_cons_eq.
        rewrite (insert_all_ext _ (fun j => map f (ins_at m j))) by (intros q Hq; rewrite ins_at_cons_ne by lia; reflexivity).
        rewrite (IH m); auto.
        -- cbn [map snd List.concat]. rewrite app_length. lia.
        -- intros q Hq. specialize (Hj _ Hq). specialize (H _ (or_intror Hq)). cbn [List.length] in H. lia.
      * assert (i < j)%nat by (specialize (H j (or_introl eq_refl)); lia).
        rewrite ins_at_none by (intros q [<-|Hq]; [exact H0|specialize (Hj _ Hq); lia]).
        assert (HH : forall q, In q (map fst ((j, syms) :: m)) -> (Datatypes.S i <= q <= Datatypes.S i + List.length l)%nat).
        { intros q Hq. pose proof (H _ Hq) as HB. cbn [List.length] in HB. destruct Hq as [<-|Hq]; [cbn [fst] in *; lia|]. specialize (Hj _ Hq). lia. }
        rewrite (IH ((j, syms) :: m) (Datatypes.S i) S HH). cbn [List.length]. lia.
Qed.

Lemma merged_size_ok : forall (m : symbol_idx_map symbol_set) acc, 0 <= acc ->
  rfold (fun merged (p : nat * symbol_set) =>
           let tmp_size := Z.of_nat (List.length (snd p)) in
           if imax size_t - merged <? tmp_size then Throw overflow_error else Ok (merged + tmp_size)) m acc
  = (let t := acc + Z.of_nat (List.length (List.concat (map snd m))) in
     match m with [] => Ok acc | _ => if imax size_t <? t then Throw overflow_error else Ok t end).
Proof.
  induction m as [|[j x] m IH]; intros acc Ha; [reflexivity|].
  cbn zeta. cbn [rfold snd map List.concat]. rewrite app_length, Nat2Z.inj_add.
  destruct (Z.ltb_spec (imax size_t - acc) (Z.of_nat (List.length x))).
  - cbn [bind]. destruct (Z.ltb_spec (imax size_t) (acc + (Z.of_nat (List.length x) + Z.of_nat (List.length (List.concat (map snd m)))))); [reflexivity|lia].
  - cbn [bind]. rewrite IH by lia. cbn zeta.
    destruct m as [|q m].
    + cbn [map List.concat List.length]. destruct (Z.ltb_spec (imax size_t) (acc + (Z.of_nat (List.length x) + Z.of_nat 0))); [lia|]. f_equal. lia.
    + rewrite Z.add_assoc. reflexivity.
Qed.

Lemma zero_comp D n : packable D -> good_size D n -> comp_ok D n 0.
Proof. intros HD G. pose proof (lim_pos D n HD G). unfold comp_ok. lia. Qed.

(** What key_merge_symbols does. *)
Lemma merge_ok D s p vs (m : symbol_idx_map symbol_set) : packable D -> represents D (List.length s) p vs ->
  ins_map_ok (List.length s) m ->
  let ws := insert_zeros m vs in
  pm_merge_symbols D p m s =
    if imax size_t <? Z.of_nat (List.length ws) then Throw overflow_error
    else if imax uint32 <? Z.of_nat (List.length ws) then Throw safe_cast_failure
    else if (List.length ws <=? max_size D)%nat && fits D (List.length ws) ws
    then Ok (kron (delta D (List.length ws)) ws) else Throw overflow_error.
Proof.
  intros HD R [S F] ws. destruct (rep_unpack _ _ _ _ HD R) as (u & E & P).
  pose proof R as (L & B & C & _).
  assert (Hpos : forall j, In j (map fst m) -> (0 <= j <= 0 + List.length vs)%nat).
  { intros j Hj. apply in_map_iff in Hj as ([j' x] & <- & I). rewrite Forall_forall in F. destruct (F _ I) as [F1 _]. cbn [fst] in *. lia. }
  assert (Lw : List.length ws = (List.length s + List.length (List.concat (map snd m)))%nat).
  { unfold ws, insert_zeros. rewrite (insert_all_len m (fun _ => 0)) by assumption. rewrite L. reflexivity. }
  unfold pm_merge_symbols, pm_merged_size. rewrite merged_size_ok by lia. cbn zeta.
  rewrite <- Nat2Z.inj_add, <- Lw.
  assert (SML : Z.of_nat (max_size D) <= 64) by (destruct HD as [->|[->|[->| ->]]]; vm_compute; discriminate).
  assert (M : (match m with [] => Ok (Z.of_nat (List.length s)) | _ :: _ => if imax size_t <? Z.of_nat (List.length ws) then Throw overflow_error else Ok (Z.of_nat (List.length ws)) end)
    = if imax size_t <? Z.of_nat (List.length ws) then Throw overflow_error else Ok (Z.of_nat (List.length ws))).
  { revert Lw. generalize (List.length ws). intros k Lw.
    destruct m; [|reflexivity]. cbn [map List.concat List.length] in Lw. destruct (Z.ltb_spec (imax size_t) (Z.of_nat k)).
    - exfalso. change (imax size_t) with 18446744073709551615 in *. lia.
    - do 2 f_equal. lia. }
  rewrite M. clear M. destruct (Z.ltb_spec (imax size_t) (Z.of_nat (List.length ws))) as [|LE]; [reflexivity|].
  cbn [bind]. rewrite E. cbn [bind].
  rewrite safe_cast_int_spec.
  2:{ right. exists 32, false. cbn. auto 10. }
  2:{ right. exists 64, false. cbn. auto 10. }
  2:{ apply hv_unfold. unfold imin. cbn [sgnd size_t]. lia. }
  assert (IU : in_ity uint32 (Z.of_nat (List.length ws)) = negb (imax uint32 <? Z.of_nat (List.length ws))).
  { unfold in_ity. rewrite <- Z.leb_antisym. change (imin uint32) with 0. destruct (Z.leb_spec 0 (Z.of_nat (List.length ws))); [reflexivity|lia]. }
  rewrite IU. destruct (Z.ltb_spec (imax uint32) (Z.of_nat (List.length ws))) as [|LE2]; [reflexivity|].
  cbn [negb bind]. rewrite Nat2Z.id. rewrite new_cases by exact HD.
  destruct (Nat.ltb_spec (max_size D) (List.length ws)) as [GT|LE3].
  - cbn [bind]. destruct (Nat.leb_spec (List.length ws) (max_size D)); [lia|reflexivity].
  - cbn [bind]. destruct (Nat.leb_spec (List.length ws) (max_size D)); [|lia]. cbn [andb].
    rewrite <- L in P at 1. rewrite <- L at 1. rewrite merge_loop_ok by assumption. fold (insert_zeros m vs). fold ws.
    rewrite push_all_outcome by (auto; lia). unfold fits. destruct (forallb _ ws); reflexivity.
Qed.

(** * Exponents by name *)
Lemma expo_notin ss : forall vs x, ~ In x ss -> expo ss vs x = 0.
Proof.
  induction ss as [|s ss IH]; intros [|v vs] x H; try reflexivity. cbn [expo].
  destruct (String.eqb_spec s x). { subst. exfalso. apply H. left; auto. }
  apply IH. intro I. apply H. right; auto.
Qed.

Lemma expo_zeros a b s v x : (List.length a = List.length b) -> Forall (fun e => e = 0) b ->
  ~ In x a -> expo (a ++ s) (b ++ v) x = expo s v x.
Proof.
  revert b. induction a as [|y a IH]; intros [|e b] L F N; try discriminate; [reflexivity|].
  cbn [app expo]. destruct (String.eqb_spec y x). { subst. exfalso. apply N. left; auto. }
  inversion F; subst. apply IH; auto. intro I. apply N. right; auto.
Qed.

Lemma expo_zeros_in a b s v x : (List.length a = List.length b) -> Forall (fun e => e = 0) b ->
  In x a -> expo (a ++ s) (b ++ v) x = 0.
Proof.
  revert b. induction a as [|y a IH]; intros [|e b] L F N; try discriminate; [destruct N|].
  cbn [app expo]. inversion F; subst. destruct (String.eqb_spec y x); [reflexivity|].
  destruct N as [->|N]; [congruence|]. apply IH; auto.
Qed.

Lemma map_zero {A} (l : list A) : Forall (fun e => e = 0) (map (fun _ => 0) l).
Proof. induction l; constructor; auto. Qed.

(** Inserting symbols with zero exponents does not change the exponent of any symbol. *)
Lemma expo_insert (f : nat -> list string) : forall s vs i x,
  NoDup (insert_all f i s) -> List.length s = List.length vs ->
  expo (insert_all f i s) (insert_all (fun j => map (fun _ => 0) (f j)) i vs) x = expo s vs x.
Proof.
  induction s as [|y s IH]; intros [|v vs] i x N L; try discriminate.
  - cbn [insert_all expo]. destruct (in_dec string_dec x (f i)) as [I|I].
    + rewrite <- (app_nil_r (f i)) at 1. rewrite <- (app_nil_r (map _ (f i))).
      apply expo_zeros_in; auto using map_zero. rewrite map_length; auto.
    + apply expo_notin. exact I.
  - cbn [insert_all]. cbn [insert_all] in N. cbn [List.length] in L.
    destruct (in_dec string_dec x (f i)) as [I|I].
    + rewrite expo_zeros_in; auto using map_zero; [|rewrite map_length; auto].
      symmetry. apply expo_notin. intro I2.
      assert (In x (y :: insert_all f (S i) s)).
      { destruct I2 as [->|I2]; [left; auto|right]. clear -I2. generalize (S i).
        induction s as [|z s IHs]; intros k; [destruct I2|]. cbn [insert_all]. apply in_or_app. right.
        destruct I2 as [->|I2]; [left; auto|right; auto]. }
      revert N I H. clear. intros N I H. induction (f i) as [|z l IHl]; [destruct I|].
      cbn [app] in N. inversion N; subst. destruct I as [->|I]; [apply H2, in_or_app; auto|auto].
    + rewrite expo_zeros; auto using map_zero; [|rewrite map_length; auto].
      cbn [expo]. destruct (String.eqb y x); [reflexivity|]. apply IH; [|lia].
      clear -N. induction (f i) as [|z l IHl]; [cbn [app] in N; inversion N; auto|].
      cbn [app] in N. inversion N; subst; auto.
Qed.

(** Two vectors over the same distinct symbols with equal exponents are equal. *)
Lemma expo_inj : forall ss vs ws, NoDup ss -> List.length vs = List.length ss -> List.length ws = List.length ss ->
  (forall x, expo ss vs x = expo ss ws x) -> vs = ws.
Proof.
  induction ss as [|s ss IH]; intros [|v vs] [|w ws] N L1 L2 H; try discriminate; [reflexivity|].
  inversion N; subst. cbn [expo] in H. f_equal.
  - specialize (H s). rewrite String.eqb_refl in H. exact H.
  - apply IH; auto. intros x. specialize (H x). destruct (String.eqb_spec s x); [|exact H].
    subst. rewrite !expo_notin by assumption. reflexivity.
Qed.

Lemma expo_select keep : forall ss vs i x, NoDup ss -> List.length vs = List.length ss ->
  (forall j, (j < List.length ss)%nat -> keep (i + j)%nat = false -> nth j vs 0 = 0) ->
  expo (select_from keep i ss) (select_from keep i vs) x = expo ss vs x.
Proof.
  induction ss as [|s ss IH]; intros [|v vs] i x N L H; try discriminate; [reflexivity|].
  inversion N; subst. rewrite !select_from_cons. cbn [List.length] in *.
  assert (IH' : expo (select_from keep (S i) ss) (select_from keep (S i) vs) x = expo ss vs x).
  { apply IH; auto. intros j Hj K. specialize (H (S j)). cbn [nth] in H. apply H; [lia|].
    rewrite <- K. f_equal. lia. }
  cbn [expo]. destruct (keep i) eqn:K.
  - cbn [expo]. rewrite IH'. reflexivity.
  - rewrite IH'. destruct (String.eqb_spec s x); [|reflexivity]. subst.
    rewrite expo_notin by assumption. specialize (H O). rewrite Nat.add_0_r in H. cbn [nth] in H.
    symmetry. apply H; [lia|exact K].
Qed.

Lemma select_nodup {A} keep (l : list A) : forall i, NoDup l -> NoDup (select_from keep i l).
Proof.
  induction l as [|x l IH]; intros i N; [constructor|]. inversion N; subst. rewrite select_from_cons.
  destruct (keep i); auto. constructor; auto. intro I. apply H1. revert I. clear.
  generalize (S i). induction l as [|y l IH]; intros k I; [destruct I|]. rewrite select_from_cons in I.
  destruct (keep k); [destruct I as [->|I]|]; [left; auto|right; eauto|right; eauto].
Qed.

Lemma fits_iff D n ws : fits D n ws = true <-> Forall (comp_ok D n) ws.
Proof. apply all_okb_iff. Qed.

(** Extending a trimmed monomial back. *)
Lemma trim_extend D ss p vs si r (m : symbol_idx_map symbol_set) : packable D -> sorted_set ss ->
  represents D (List.length ss) p vs -> StronglySorted lt si -> (forall y, In y si -> (y < List.length ss)%nat) ->
  (forall y, In y si -> nth y vs 0 = 0) ->
  pm_trim D p si ss = Ok r ->
  let ss' := select (fun j => negb (mem j si)) ss in
  ins_map_ok (List.length ss') m -> insert_all (ins_at m) 0 ss' = ss ->
  pm_merge_symbols D r m ss' = Ok p.
Proof.
  intros HD Sss R S H Z T ss' MO I.
  destruct (trim_ok D ss p vs si HD R S H) as (r' & T' & R'). rewrite T in T'. inversion T'; subst r'. clear T'.
  assert (Lss' : List.length ss' = (List.length ss - List.length si)%nat).
  { unfold ss', select. change (map snd (filter (fun p0 => negb (mem (fst p0) si)) (combine (seq 0 (List.length ss)) ss))) with (select_from (fun j => negb (mem j si)) 0 ss).
    apply select_from_len; auto. intros y Hy. specialize (H y Hy). lia. }
  set (vs' := select (fun j => negb (mem j si)) vs) in *.
  rewrite <- Lss' in R'.
  assert (W : insert_zeros m vs' = vs).
  { pose proof R as (L & _). apply (expo_inj ss); auto.
    - apply sorted_nodup; auto.
    - rewrite <- I. unfold insert_zeros.
      rewrite (insert_all_len m (fun _ => 0)); [|apply MO|].
      + rewrite <- (map_id (ins_at m 0)) at 1 || idtac.
        pose proof (insert_all_len m (fun s => s) ss' 0) as L2.
        rewrite (insert_all_ext _ (ins_at m)) in L2 by (intros; apply map_id).
        rewrite L2; [|apply MO|].
        * destruct R' as (L' & _). rewrite L'. reflexivity.
        * intros j Hj. destruct MO as [_ F]. apply in_map_iff in Hj as ([j' x] & <- & Ij). rewrite Forall_forall in F. destruct (F _ Ij) as [F1 _]. cbn [fst] in *. lia.
      + destruct R' as (L' & _). intros j Hj. destruct MO as [_ F]. apply in_map_iff in Hj as ([j' x] & <- & Ij). rewrite Forall_forall in F. destruct (F _ Ij) as [F1 _]. cbn [fst] in *. lia.
    - intros x. unfold insert_zeros. rewrite <- I at 1. rewrite expo_insert.
      + unfold ss', vs'. apply (expo_select (fun j => negb (mem j si)) ss vs 0 x); auto.
        * apply sorted_nodup; auto.
        * intros j Hj K. cbn [Nat.add] in K. apply negb_false_iff, mem_in in K. apply Z. exact K.
      + rewrite I. apply sorted_nodup; auto.
      + destruct R' as (L' & _). lia. }
  rewrite (merge_ok D ss' r vs' m HD R' MO). rewrite W. pose proof R as (L & B & C & Ep). rewrite L.
  assert (SML : Z.of_nat (max_size D) <= 64) by (destruct HD as [->|[->|[->| ->]]]; vm_compute; discriminate).
  destruct (Z.ltb_spec (imax size_t) (Z.of_nat (List.length ss))); [change (imax size_t) with 18446744073709551615 in *; lia|].
  destruct (Z.ltb_spec (imax uint32) (Z.of_nat (List.length ss))); [change (imax uint32) with 4294967295 in *; lia|].
  apply fits_iff in C. rewrite C. destruct (Nat.leb_spec (List.length ss) (max_size D)); [|lia]. cbn [andb]. rewrite Ep. reflexivity.
Qed.

(** * Trim identification over several monomials *)
Lemma trim_flags_nth v vs i : List.length v = List.length vs -> (i < List.length v)%nat ->
  nth i (trim_flags v vs) 0 = if nth i vs 0 =? 0 then nth i v 0 else 0.
Proof.
  revert vs i. induction v as [|f v IH]; intros [|x vs] i L H; try discriminate; [cbn in H; lia|].
  unfold trim_flags in *. cbn [combine map]. destruct i; [reflexivity|]. cbn [nth fst snd]. cbn [List.length] in *.
  apply IH; lia.
Qed.

Lemma trim_flags_len v vs : List.length v = List.length vs -> List.length (trim_flags v vs) = List.length v.
Proof. intros. unfold trim_flags. rewrite map_length, combine_length. lia. Qed.

Lemma identify_all D ss : packable D -> forall (terms : list (Z * list Z)) v,
  Forall (fun t => represents D (List.length ss) (fst t) (snd t)) terms -> List.length v = List.length ss ->
  exists v', rfold (fun v p => pm_trim_identify D v p ss) (map fst terms) v = Ok v' /\
    List.length v' = List.length ss /\
    forall i, (i < List.length ss)%nat ->
      nth i v' 0 = if forallb (fun t => nth i (snd t) 0 =? 0) terms then nth i v 0 else 0.
Proof.
  intros HD. induction terms as [|[p vs] terms IH]; intros v F L.
  - exists v. repeat split; auto.
  - inversion F; subst. cbn [fst snd] in H1. cbn [map fst rfold].
    rewrite (identify_ok D ss p vs v HD H1 L). cbn [bind].
    pose proof H1 as (L1 & _).
    destruct (IH (trim_flags v vs) H2) as (v' & E & L' & N); [rewrite trim_flags_len; lia|].
    exists v'. repeat split; auto. intros i Hi. rewrite N by exact Hi. cbn [forallb snd].
    rewrite trim_flags_nth by lia. destruct (nth i vs 0 =? 0); cbn [andb]; [reflexivity|].
    destruct (forallb _ terms); reflexivity.
Qed.

(** * Evaluation and substitution *)
Definition pstep {V U} (vmul : V -> V -> V) (vpow : U -> Z -> res V) (acc : V) (p : U * Z) : res V :=
  pw <- vpow (fst p) (snd p) ;; Ok (vmul acc pw).

Lemma eval_loop_ok {V U} D (vmul : V -> V -> V) (vpow : U -> Z -> res V) : forall vs (xs : list U) is u acc,
  List.length xs = List.length vs -> List.length is = List.length vs ->
  kunpacker_pops D (List.length vs) u = Ok vs ->
  pm_eval_loop D vmul vpow (combine is xs) u acc = rfold (pstep vmul vpow) (combine xs vs) acc.
Proof.
  induction vs as [|v vs IH]; intros [|x xs] [|i is] u acc L1 L2 P; try discriminate; [reflexivity|].
  cbn [List.length kunpacker_pops] in P.
  destruct (kunpacker_pop D u) as [[v0 u']| |] eqn:E; cbn [bind] in P; try discriminate.
  destruct (kunpacker_pops D (List.length vs) u') as [ws| |] eqn:E2; cbn [bind] in P; try discriminate.
  inversion P; subst v0 ws. cbn [combine pm_eval_loop]. rewrite E. cbn [bind rfold]. unfold pstep at 1. cbn [fst snd].
  destruct (vpow x v) as [pw| |]; cbn [bind]; auto.
Qed.

Lemma evaluate_ok {V U} D (vone : V) (vmul : V -> V -> V) (vpow : U -> Z -> res V) ss p vs (xs : list U) :
  packable D -> represents D (List.length ss) p vs -> List.length xs = List.length ss ->
  pm_evaluate D vone vmul vpow p (combine (seq 0 (List.length ss)) xs) ss =
  rfold (pstep vmul vpow) (combine xs vs) vone.
Proof.
  intros HD R L. destruct (rep_unpack _ _ _ _ HD R) as (u & E & P). destruct R as (L' & _).
  unfold pm_evaluate. rewrite E. cbn [bind]. rewrite <- L' in P at 1.
  apply eval_loop_ok; auto; [lia|]. rewrite seq_length. lia.
Qed.

Definition zero_from (si : list nat) (i : nat) (vs : list Z) : list Z :=
  map (fun p => if mem (fst p) si then 0 else snd p) (combine (seq i (List.length vs)) vs).
Lemma zero_from_cons si i v vs : zero_from si i (v :: vs) = (if mem i si then 0 else v) :: zero_from si (S i) vs.
Proof. reflexivity. Qed.
Lemma zero_from_ext a b vs : forall i, (forall j, (i <= j)%nat -> mem j a = mem j b) -> zero_from a i vs = zero_from b i vs.
Proof.
  induction vs as [|v vs IH]; intros i H; [reflexivity|]. rewrite !zero_from_cons, H by lia.
  f_equal. apply IH. intros; apply H; lia.
Qed.

Definition sub_pairs {U} (sm : list (nat * U)) (i : nat) (vs : list Z) : list (U * Z) :=
  map (fun p => (snd p, nth (fst p - i) vs 0)) sm.

Lemma subs_loop {V U} D n (vmul : V -> V -> V) (vpow : U -> Z -> res V) : packable D -> good_size D n ->
  forall vs i (sm : list (nat * U)) acc done,
  Forall (comp_ok D n) done -> Forall (comp_ok D n) vs -> (List.length done + List.length vs <= n)%nat ->
  StronglySorted lt (map fst sm) -> (forall y, In y (map fst sm) -> (i <= y < i + List.length vs)%nat) ->
  rfoldi (fun '(retval, kp, sm_it) i tmp =>
         match sm_it with
         | (j, x) :: sm' =>
             if (j =? i)%nat
             then
               pw <- vpow x tmp ;;
               kp' <- kpacker_push D kp 0 ;;
               Ok (vmul retval pw, kp', sm')
             else kp' <- kpacker_push D kp tmp ;; Ok (retval, kp', sm_it)
         | [] => kp' <- kpacker_push D kp tmp ;; Ok (retval, kp', sm_it)
         end) vs i (acc, pstate D n done, sm) =
  (r <- rfold (pstep vmul vpow) (sub_pairs sm i vs) acc ;;
   Ok (r, pstate D n (done ++ zero_from (map fst sm) i vs), [])).
Proof.
  intros HD G. pose proof (packable_ok _ HD) as OK. pose proof (zero_comp D n HD G) as Z0.
  induction vs as [|v vs IH]; intros i sm acc done Fd Fv L S H.
  - destruct sm as [|[j x] sm].
    + cbn. rewrite app_nil_r. reflexivity.
    + exfalso. specialize (H j (or_introl eq_refl)). cbn [List.length] in H. lia.
  - inversion Fv; subst. cbn [List.length] in L. cbn [rfoldi]. rewrite zero_from_cons.
    destruct sm as [|[j x] sm].
    + rewrite push_ok by (auto; lia). cbn [bind]. rewrite IH; auto.
      * cbn [sub_pairs map rfold bind]. rewrite <- app_assoc. reflexivity.
      * apply Forall_app; auto.
      * rewrite app_length; cbn; lia.
      * intros y [].
    + cbn [map fst] in S, H. pose proof (sorted_gt _ _ S) as [S' Hj].
      destruct (Nat.eqb_spec j i) as [->|Hne].
      * cbn [sub_pairs map fst snd]. rewrite Nat.sub_diag. change (nth 0 (v :: vs) 0) with v. cbn [rfold]. unfold pstep at 1. cbn [fst snd].
        destruct (vpow x v) as [pw| |]; cbn [bind]; auto.
        rewrite push_ok by (auto; lia). cbn [bind]. rewrite IH; auto.
        -- assert (mem i (i :: map fst sm) = true) as -> by (apply mem_in; left; auto).
           assert (SP : sub_pairs sm (Datatypes.S i) vs = map (fun p => (snd p, nth (fst p - i) (v :: vs) 0)) sm).
           { unfold sub_pairs. apply map_ext_in. intros [q y] Iq. cbn [fst snd].
             assert (i < q)%nat by (apply Hj; apply in_map_iff; exists (q, y); auto).
             replace (q - i)%nat with (Datatypes.S (q - Datatypes.S i)) by lia. reflexivity. }
           rewrite <- SP. destruct (rfold _ _ _); cbn [bind]; auto. rewrite <- app_assoc. cbn [app].
           rewrite (zero_from_ext (i :: map fst sm) (map fst sm)); [reflexivity|].
           intros q Hq. unfold mem. cbn [existsb]. destruct (Nat.eqb_spec q i); [lia|]. reflexivity.
        -- apply Forall_app; auto.
        -- rewrite app_length; cbn; lia.
        -- intros y Hy. specialize (Hj _ Hy). specialize (H _ (or_intror Hy)). cbn [List.length] in H. lia.
      * assert (i < j)%nat by (assert (i <= j)%nat by (apply H; left; auto); lia).
        rewrite push_ok by (auto; lia). cbn [bind]. rewrite IH; auto.
        -- assert (mem i (map fst ((j, x) :: sm)) = false) as ->.
           { apply mem_small. intros y [<-|Hy]; [exact H0|]. specialize (Hj _ Hy). lia. }
           assert (SP : sub_pairs ((j, x) :: sm) (Datatypes.S i) vs = sub_pairs ((j, x) :: sm) i (v :: vs)).
           { unfold sub_pairs. apply map_ext_in. intros [q y] Iq. cbn [fst snd].
             assert (i < q)%nat by (destruct Iq as [E|Iq]; [inversion E; subst; auto|]; assert (j < q)%nat by (apply Hj; apply in_map_iff; exists (q, y); auto); lia).
             replace (q - i)%nat with (Datatypes.S (q - Datatypes.S i)) by lia. reflexivity. }
           rewrite SP. destruct (rfold _ _ _); cbn [bind]; auto. rewrite <- app_assoc. reflexivity.
        -- apply Forall_app; auto.
        -- rewrite app_length; cbn; lia.
        -- intros y Hy. pose proof (H _ Hy) as HB. cbn [List.length] in HB. destruct Hy as [<-|Hy]; [cbn [fst] in *; lia|]. specialize (Hj _ Hy). lia.
Qed.

Lemma zero_at_ok D n : packable D -> good_size D n -> forall si vs i, Forall (comp_ok D n) vs -> Forall (comp_ok D n) (zero_from si i vs).
Proof.
  intros HD G si. induction vs as [|v vs IH]; intros i F; [constructor|]. inversion F; subst. rewrite zero_from_cons.
  constructor; auto. destruct (mem i si); auto using zero_comp.
Qed.

Lemma subs_ok {V U} D (vone : V) (vmul : V -> V -> V) (vpow : U -> Z -> res V) ss p vs (sm : symbol_idx_map U) :
  packable D -> represents D (List.length ss) p vs ->
  StronglySorted lt (map fst sm) -> (forall y, In y (map fst sm) -> (y < List.length ss)%nat) ->
  pm_subs D vone vmul vpow p sm ss =
  (r <- rfold (pstep vmul vpow) (map (fun q => (snd q, nth (fst q) vs 0)) sm) vone ;;
   Ok (r, kron (delta D (List.length ss)) (zero_at (map fst sm) vs))) /\
  represents D (List.length ss) (kron (delta D (List.length ss)) (zero_at (map fst sm) vs)) (zero_at (map fst sm) vs).
Proof.
  intros HD R S H. destruct (rep_unpack _ _ _ _ HD R) as (u & E & P). pose proof R as (L & B & C & Ep).
  split.
  - unfold pm_subs. rewrite E. cbn [bind]. rewrite new_cases by auto.
    replace (max_size D <? List.length ss)%nat with false by (symmetry; apply Nat.ltb_ge; lia).
    cbn [bind]. rewrite (unpack_loop_pure _ _ _ _ _ _ _ P).
    destruct vs as [|v vs].
    + cbn [List.length] in L. destruct sm as [|[j x] sm].
      * cbn. try rewrite <- L. reflexivity.
      * exfalso. specialize (H j (or_introl eq_refl)). lia.
    + assert (G : good_size D (List.length ss)) by (apply (good_of _ _ _ _ R); cbn in L; lia).
      rewrite (kp0_pstate D). unfold symbol_idx_map in *. rewrite (subs_loop D (List.length ss) vmul vpow HD G (v :: vs) 0 sm vone []); auto; try (cbn [List.length] in *; lia).
      * unfold sub_pairs.
        rewrite (map_ext (fun p0 : nat * U => (snd p0, nth (fst p0 - 0) (v :: vs) 0)) (fun q => (snd q, nth (fst q) (v :: vs) 0)))
          by (intros [q y]; cbn [fst snd]; rewrite Nat.sub_0_r; reflexivity).
        destruct (rfold _ _ _); cbn [bind]; auto.
      * intros y Hy. specialize (H _ Hy). cbn [List.length] in *. lia.
  - destruct vs as [|v vs].
    + cbn [List.length] in L. rewrite <- L in *. repeat split; auto.
    + assert (G : good_size D (List.length ss)) by (apply (good_of _ _ _ _ R); cbn in L; lia).
      repeat split; auto.
      * unfold zero_at. rewrite map_length, combine_length, seq_length. lia.
      * apply (zero_at_ok D _ HD G (map fst sm) (v :: vs) 0). exact C.
Qed.

(** * The overflow check *)
Definition extremum (le : Z -> Z -> Prop) (P : Z -> Prop) (m : Z) : Prop := P m /\ forall x, P x -> le x m.
(** [e] bounds, tightly, component i of the exponent vectors satisfying P. *)
Definition entry_ok (D : kdata) (P : list Z -> Prop) (i : nat) (e : Z * Z) : Prop :=
  (exists vs, P vs /\ nth i vs 0 = snd e) /\ (forall vs, P vs -> nth i vs 0 <= snd e) /\
  (sgnd (kd_ty D) = true ->
   (exists vs, P vs /\ nth i vs 0 = fst e) /\ (forall vs, P vs -> fst e <= nth i vs 0)).
Definition lims_ok (D : kdata) (n : nat) (P : list Z -> Prop) (l : lims) : Prop :=
  List.length l = n /\ forall i, (i < n)%nat -> entry_ok D P i (nth i l (0, 0)).

Lemma upd_loop (g : Z * Z -> Z -> Z * Z) : forall vs l done, List.length l = List.length vs ->
  rfoldi (fun l i tmp => upd_nth l i (fun e => g e tmp)) vs (List.length done) (done ++ l)
  = Ok (done ++ map (fun p => g (fst p) (snd p)) (combine l vs)).
Proof.
  induction vs as [|x vs IH]; intros [|e l] done L; try discriminate; [reflexivity|].
  cbn [rfoldi]. cbn [List.length] in L. rewrite upd_nth_app. cbn [bind].
  specialize (IH l (done ++ [g e x])). rewrite app_length in IH. cbn [List.length] in IH. rewrite Nat.add_1_r in IH.
  rewrite <- app_assoc in IH. cbn [app] in IH. rewrite IH by lia. rewrite <- app_assoc. reflexivity.
Qed.

Lemma nth_combine_map {A B C} (g : A -> B -> C) (d : C) da db : forall l vs i, List.length l = List.length vs -> (i < List.length l)%nat ->
  nth i (map (fun p => g (fst p) (snd p)) (combine l vs)) d = g (nth i l da) (nth i vs db).
Proof.
  induction l as [|e l IH]; intros [|v vs] i L H; try discriminate; [cbn in H; lia|].
  cbn [combine map]. destruct i; [reflexivity|]. cbn [nth]. cbn [List.length] in *. apply IH; lia.
Qed.

Lemma entry_update D P i e vs : entry_ok D P i e ->
  entry_ok D (fun ws => P ws \/ ws = vs) i (pm_update_entry D e (nth i vs 0)).
Proof.
  intros ((w1 & P1 & E1) & U1 & SG). unfold pm_update_entry.
  set (x := nth i vs 0).
  assert (MX : (exists ws, (P ws \/ ws = vs) /\ nth i ws 0 = if snd e <? x then x else snd e) /\
               (forall ws, P ws \/ ws = vs -> nth i ws 0 <= if snd e <? x then x else snd e)).
  { destruct (Z.ltb_spec (snd e) x).
    - split; [exists vs; auto|]. intros ws [Hw| ->]; [specialize (U1 _ Hw); lia|unfold x; lia].
    - split; [exists w1; auto|]. intros ws [Hw| ->]; [auto|exact H]. }
  destruct (sgnd (kd_ty D)) eqn:S.
  - destruct (SG eq_refl) as ((w2 & P2 & E2) & U2).
    split; [exact (proj1 MX)|]. split; [exact (proj2 MX)|]. intros _. cbn [fst].
    destruct (Z.ltb_spec x (fst e)).
    + split; [exists vs; auto|]. intros ws [Hw| ->]; [specialize (U2 _ Hw); lia|unfold x; lia].
    + split; [exists w2; auto|]. intros ws [Hw| ->]; [auto|exact H].
  - split; [exact (proj1 MX)|]. split; [exact (proj2 MX)|]. congruence.
Qed.

Lemma entry_ext D (P Q : list Z -> Prop) i e : (forall vs, P vs <-> Q vs) -> entry_ok D P i e -> entry_ok D Q i e.
Proof.
  intros H ((w & A & B) & C & S). split; [exists w; split; [apply H; auto|auto]|].
  split; [intros; apply C, H; auto|]. intros SG. destruct (S SG) as ((w2 & A2 & B2) & C2).
  split; [exists w2; split; [apply H; auto|auto]|]. intros; apply C2, H; auto.
Qed.

Lemma lims_ext D n (P Q : list Z -> Prop) l : (forall vs, P vs <-> Q vs) -> lims_ok D n P l -> lims_ok D n Q l.
Proof. intros H [L E]. split; auto. intros i Hi. eapply entry_ext; eauto. Qed.

Lemma update_ok D n P l p vs : packable D -> represents D n p vs -> lims_ok D n P l ->
  exists l', pm_update_limits D n l p = Ok l' /\ lims_ok D n (fun ws => P ws \/ ws = vs) l'.
Proof.
  intros HD R [L E]. destruct (rep_unpack _ _ _ _ HD R) as (u & Eu & Pu). destruct R as (Lv & _).
  unfold pm_update_limits. rewrite Eu. cbn [bind]. rewrite (unpack_loop_pure _ _ _ _ _ _ _ Pu).
  unfold lims in *. pose proof (upd_loop (pm_update_entry D) vs l [] ltac:(lia)) as U. cbn [List.length app] in U. rewrite U.
  eexists. split; [reflexivity|]. split.
  - rewrite map_length, combine_length. lia.
  - intros i Hi. rewrite (nth_combine_map (pm_update_entry D) (0,0) (0,0) 0) by lia. apply entry_update. apply E. exact Hi.
Qed.

Lemma init_loop : forall vs i l, rfoldi (fun l _ tmp => Ok (l ++ [(tmp, tmp)])) vs i l = Ok (l ++ map (fun v : Z => (v, v)) vs).
Proof.
  induction vs as [|v vs IH]; intros i l; cbn [rfoldi map]; [rewrite app_nil_r; reflexivity|].
  cbn [bind]. rewrite IH, <- app_assoc. reflexivity.
Qed.

Lemma init_ok D n p vs : packable D -> represents D n p vs ->
  exists l, pm_init_limits D n p = Ok l /\ lims_ok D n (fun ws => ws = vs) l.
Proof.
  intros HD R. destruct (rep_unpack _ _ _ _ HD R) as (u & Eu & Pu). destruct R as (Lv & _).
  unfold pm_init_limits. rewrite Eu. cbn [bind]. rewrite (unpack_loop_pure _ _ _ _ _ _ _ Pu). unfold lims. rewrite init_loop.
  eexists. split; [reflexivity|]. cbn [app]. split; [rewrite map_length; lia|].
  intros i Hi. assert (nth i (map (fun v : Z => (v, v)) vs) (0,0) = (nth i vs 0, nth i vs 0)) as -> by exact (map_nth (fun v => (v, v)) vs 0 i).
  split; [exists vs; auto|]. split; [intros ws ->; cbn; lia|]. intros _. split; [exists vs; auto|intros ws ->; cbn; lia].
Qed.

(** The set of exponent vectors of a range. *)
Definition exps_of (D : kdata) (n : nat) (r : list Z) : list Z -> Prop :=
  fun vs => exists p, In p r /\ represents D n p vs.
Definition all_rep (D : kdata) (n : nat) (r : list Z) : Prop := Forall (fun p => exists vs, represents D n p vs) r.

Lemma serial_ok D n : packable D -> forall r P l, all_rep D n r -> lims_ok D n P l ->
  exists l', pm_limits_serial D n r l = Ok l' /\ lims_ok D n (fun ws => P ws \/ exps_of D n r ws) l'.
Proof.
  intros HD. unfold pm_limits_serial. induction r as [|p r IH]; intros P l A Hl.
  - exists l. split; [reflexivity|]. eapply lims_ext; [|exact Hl]. intros vs. split; auto. intros [H|(p & [] & _)]; auto.
  - inversion A; subst. destruct H1 as (vs & R). cbn [rfold].
    destruct (update_ok D n P l p vs HD R Hl) as (l1 & E & Hl1). rewrite E. cbn [bind].
    destruct (IH _ l1 H2 Hl1) as (l' & E' & Hl'). exists l'. split; auto.
    eapply lims_ext; [|exact Hl']. intros ws. split.
    + intros [[H| ->]|(q & I & Rq)]; auto; right; [exists p|exists q]; split; auto; [left; auto|right; auto].
    + intros [H|(q & [<-|I] & Rq)]; auto.
      * left. right. symmetry. eapply rep_unique; eauto.
      * right. exists q. auto.
Qed.

Lemma join_ok D n : forall P Q l1 l2, lims_ok D n P l1 -> lims_ok D n Q l2 ->
  exists l, pm_join D n l1 l2 = Ok l /\ lims_ok D n (fun ws => P ws \/ Q ws) l.
Proof.
  intros P Q l1 l2 [L1 E1] [L2 E2].
  assert (J : pm_join D n l1 l2 = Ok (map (fun p => pm_join_entry D (fst p) (snd p)) (combine l1 l2))).
  { clear E1 E2. revert l1 l2 L1 L2. induction n as [|k IH]; intros [|e1 l1] [|e2 l2] L1 L2; try discriminate; [reflexivity|].
    cbn [pm_join]. cbn [List.length] in *. rewrite IH by lia. reflexivity. }
  eexists. split; [exact J|]. split; [rewrite map_length, combine_length; lia|].
  intros i Hi. rewrite (nth_combine_map (pm_join_entry D) (0,0) (0,0) (0,0)) by lia.
  specialize (E1 i Hi). specialize (E2 i Hi). revert E1 E2.
  generalize (nth i l1 (0,0)) (nth i l2 (0,0)). intros e1 e2.
  intros ((w1 & P1 & M1) & U1 & S1) ((w2 & P2 & M2) & U2 & S2). unfold pm_join_entry.
  assert (MX : (exists ws, (P ws \/ Q ws) /\ nth i ws 0 = if snd e1 <? snd e2 then snd e2 else snd e1) /\
               (forall ws, P ws \/ Q ws -> nth i ws 0 <= if snd e1 <? snd e2 then snd e2 else snd e1)).
  { destruct (Z.ltb_spec (snd e1) (snd e2)).
    - split; [exists w2; auto|]. intros ws [Hw|Hw]; [specialize (U1 _ Hw); lia|auto].
    - split; [exists w1; auto|]. intros ws [Hw|Hw]; [auto|specialize (U2 _ Hw); lia]. }
  destruct (sgnd (kd_ty D)) eqn:S.
  - destruct (S1 eq_refl) as ((w3 & P3 & M3) & U3). destruct (S2 eq_refl) as ((w4 & P4 & M4) & U4).
    split; [exact (proj1 MX)|]. split; [exact (proj2 MX)|]. intros _. cbn [fst].
    destruct (Z.ltb_spec (fst e2) (fst e1)).
    + split; [exists w4; auto|]. intros ws [Hw|Hw]; [specialize (U3 _ Hw); lia|auto].
    + split; [exists w3; auto|]. intros ws [Hw|Hw]; [auto|specialize (U4 _ Hw); lia].
  - split; [exact (proj1 MX)|]. split; [exact (proj2 MX)|]. congruence.
Qed.

Lemma exps_app D n a b ws : exps_of D n (a ++ b) ws <-> exps_of D n a ws \/ exps_of D n b ws.
Proof.
  unfold exps_of. split.
  - intros (p & I & R). apply in_app_or in I as [I|I]; [left|right]; exists p; auto.
  - intros [(p & I & R)|(p & I & R)]; exists p; split; auto; apply in_or_app; auto.
Qed.

(** Any parallel reduction computes the same limits as the serial one. *)
Lemma par_ok D n f : packable D -> forall i v l r,
  par_reduce (pm_update_limits D n) (pm_join D n) i v l r ->
  lims_ok D n (fun ws => ws = f) i -> all_rep D n l ->
  forall P : list Z -> Prop, P f -> lims_ok D n P v -> lims_ok D n (fun ws => P ws \/ exps_of D n l ws) r.
Proof.
  intros HD i v l r H. induction H as [v l r E|v l1 l2 v1 r H1 IH1 H2 IH2|v l1 l2 v1 v2 r H1 IH1 H2 IH2 J];
    intros Hi A P Pf Hv.
  - destruct (serial_ok D n HD l P v A Hv) as (l' & E' & Hl'). unfold pm_limits_serial in E'. rewrite E in E'.
    inversion E'; subst. exact Hl'.
  - apply Forall_app in A as [A1 A2].
    specialize (IH2 Hi A2 (fun ws => P ws \/ exps_of D n l1 ws) (or_introl Pf) (IH1 Hi A1 P Pf Hv)).
    eapply lims_ext; [|exact IH2]. intros ws. rewrite exps_app. tauto.
  - apply Forall_app in A as [A1 A2].
    specialize (IH1 Hi A1 P Pf Hv). specialize (IH2 Hi A2 (fun ws => ws = f) eq_refl Hi).
    destruct (join_ok D n _ _ _ _ IH1 IH2) as (l & E & Hl). rewrite J in E. inversion E; subst.
    eapply lims_ext; [|exact Hl]. intros ws. rewrite exps_app. split; [|tauto].
    intros [[K|K]|[K|K]]; auto. subst. auto.
Qed.

Lemma check_sums_ok D lmin lmax : forall n l1 l2, List.length l1 = n -> List.length l2 = n ->
  exists b, pm_check_sums D lmin lmax n l1 l2 = Ok b /\
    (b = true <-> forall i, (i < n)%nat ->
       snd (nth i l1 (0,0)) + snd (nth i l2 (0,0)) <= lmax /\
       (sgnd (kd_ty D) = true -> lmin <= fst (nth i l1 (0,0)) + fst (nth i l2 (0,0)))).
Proof.
  induction n as [|n IH]; intros [|e1 l1] [|e2 l2] L1 L2; try discriminate.
  - exists true. split; [reflexivity|]. split; auto. intros _ i Hi. lia.
  - cbn [List.length] in *. destruct (IH l1 l2) as (b & E & Hb); [lia|lia|]. cbn [pm_check_sums].
    assert (K : forall c, (c = true <-> snd e1 + snd e2 <= lmax /\ (sgnd (kd_ty D) = true -> lmin <= fst e1 + fst e2)) ->
      (c && b = true <-> forall i, (i < S n)%nat ->
        snd (nth i (e1 :: l1) (0,0)) + snd (nth i (e2 :: l2) (0,0)) <= lmax /\
        (sgnd (kd_ty D) = true -> lmin <= fst (nth i (e1 :: l1) (0,0)) + fst (nth i (e2 :: l2) (0,0))))).
    { intros c Hc. rewrite andb_true_iff, Hc, Hb. split.
      - intros [A B] [|i] Hi; [exact A|]. apply (B i). lia.
      - intros A. split; [exact (A O ltac:(lia))|]. intros i Hi. exact (A (S i) ltac:(lia)). }
    destruct (sgnd (kd_ty D)) eqn:SG.
    + exists (negb ((fst e1 + fst e2 <? lmin) || (lmax <? snd e1 + snd e2)) && b). split.
      * destruct ((fst e1 + fst e2 <? lmin) || (lmax <? snd e1 + snd e2)); [reflexivity|]. rewrite E. reflexivity.
      * apply K. rewrite negb_true_iff, orb_false_iff, !Z.ltb_ge. split; [intros [A B]; auto|intros [A B]; auto].
    + exists (negb (lmax <? snd e1 + snd e2) && b). split.
      * destruct (lmax <? snd e1 + snd e2); [reflexivity|]. rewrite E. reflexivity.
      * apply K. rewrite negb_true_iff, Z.ltb_ge. split; [intros A; split; [auto|discriminate]|intros [A B]; auto].
Qed.

Lemma vadd_nth vs ws i : List.length vs = List.length ws -> (i < List.length vs)%nat -> nth i (vadd vs ws) 0 = nth i vs 0 + nth i ws 0.
Proof. intros L H. unfold vadd. apply (nth_combine_map Z.add 0 0 0); auto. Qed.

Lemma final_ok D n (P Q : list Z -> Prop) l1 l2 : packable D -> good_size D n ->
  (forall vs, P vs -> List.length vs = n /\ Forall (comp_ok D n) vs) ->
  (forall vs, Q vs -> List.length vs = n /\ Forall (comp_ok D n) vs) ->
  lims_ok D n P l1 -> lims_ok D n Q l2 ->
  exists b, ('(lim_min, lim_max) <- kpack_get_lims D n ;; pm_check_sums D lim_min lim_max n l1 l2) = Ok b /\
    (b = true <-> forall vs ws, P vs -> Q ws -> Forall (comp_ok D n) (vadd vs ws)).
Proof.
  intros HD G HP HQ [L1 E1] [L2 E2].
  rewrite get_lims by auto using packable_ok. cbn [bind].
  destruct (check_sums_ok D (lo D n) (lim D n) n l1 l2 L1 L2) as (b & Eb & Hb). exists b. split; [exact Eb|].
  rewrite Hb. split.
  - intros H vs ws Pv Qw. destruct (HP _ Pv) as [Lv Cv]. destruct (HQ _ Qw) as [Lw Cw].
    apply Forall_forall. intros x I. apply (In_nth _ _ 0) in I as (i & Hi & <-).
    rewrite vadd_length in Hi by lia. rewrite vadd_nth by lia.
    assert (Hi' : (i < n)%nat) by lia.
    destruct (E1 i Hi') as (_ & U1 & S1). destruct (E2 i Hi') as (_ & U2 & S2). destruct (H i Hi') as [HM HS].
    specialize (U1 _ Pv). specialize (U2 _ Qw).
    split; [|lia]. unfold lo in *. destruct (sgnd (kd_ty D)) eqn:SG.
    + destruct (S1 eq_refl) as (_ & V1). destruct (S2 eq_refl) as (_ & V2). specialize (HS eq_refl). specialize (V1 _ Pv). specialize (V2 _ Qw). lia.
    + rewrite Forall_forall in Cv, Cw. assert (comp_ok D n (nth i vs 0)) by (apply Cv, nth_In; lia).
      assert (comp_ok D n (nth i ws 0)) by (apply Cw, nth_In; lia). unfold comp_ok, lo in *. rewrite SG in *. lia.
  - intros H i Hi. destruct (E1 i Hi) as ((v1 & P1 & M1) & _ & S1). destruct (E2 i Hi) as ((w1 & Q1 & N1) & _ & S2).
    assert (GETC : forall vs ws, P vs -> Q ws -> comp_ok D n (nth i vs 0 + nth i ws 0)).
    { intros vs ws Pv Qw. destruct (HP _ Pv) as [Lv _]. destruct (HQ _ Qw) as [Lw _].
      specialize (H vs ws Pv Qw). rewrite Forall_forall in H. rewrite <- vadd_nth by lia. apply H. apply nth_In. rewrite vadd_length; lia. }
    split.
    + pose proof (GETC _ _ P1 Q1) as [_ K]. lia.
    + intros SG. destruct (S1 SG) as ((v2 & P2 & M2) & _). destruct (S2 SG) as ((w2 & Q2 & N2) & _).
      pose proof (GETC _ _ P2 Q2) as [K _]. lia.
Qed.

(** Every verdict is exact. *)
Lemma overflow_check_ok D ra ss r1 r2 v : packable D -> all_rep D (List.length ss) r1 -> all_rep D (List.length ss) r2 ->
  pm_overflow_check D ra ss r1 r2 v ->
  exists b, v = Ok b /\
    (b = true <-> forall p q vs ws, In p r1 -> In q r2 -> represents D (List.length ss) p vs -> represents D (List.length ss) q ws ->
       Forall (comp_ok D (List.length ss)) (vadd vs ws)).
Proof.
  intros HD A1 A2 H.
  assert (CONV : forall r1 r2 b, (b = true <-> forall vs ws, exps_of D (List.length ss) r1 vs -> exps_of D (List.length ss) r2 ws -> Forall (comp_ok D (List.length ss)) (vadd vs ws)) ->
     (b = true <-> forall p q vs ws, In p r1 -> In q r2 -> represents D (List.length ss) p vs -> represents D (List.length ss) q ws ->
       Forall (comp_ok D (List.length ss)) (vadd vs ws))).
  { intros a1 a2 b Hb. rewrite Hb. split.
    - intros K p q vs ws I1 I2 R1 R2. apply K; [exists p|exists q]; auto.
    - intros K vs ws (p & I1 & R1) (q & I2 & R2). eapply K; eauto. }
  assert (HE : forall r vs, exps_of D (List.length ss) r vs -> List.length vs = List.length ss /\ Forall (comp_ok D (List.length ss)) vs).
  { intros r vs (p & _ & (L & _ & C & _)). auto. }
  inversion H as [r1' r2' S0|r1' r2' S0 EM|p1 t1 p2 t2 S0 PP|p1 t1 p2 t2 i1 i2 l1 l2 S0 PP E1 E2 R1 R2]; subst.
  - exists true. split; auto. split; auto. intros _ p q vs ws _ _ (L1 & _) _.
    cbn [List.length] in L1. destruct vs; [constructor|discriminate].
  - exists true. split; auto. split; auto. intros _ p q vs ws I1 I2. destruct EM; subst; contradiction.
  - inversion A1 as [|? ? (vs1 & Rp1) A1']; subst. inversion A2 as [|? ? (vs2 & Rp2) A2']; subst.
    destruct (init_ok _ _ _ _ HD Rp1) as (i1 & Ei1 & Hi1). destruct (init_ok _ _ _ _ HD Rp2) as (i2 & Ei2 & Hi2).
    rewrite Ei1. cbn [bind]. rewrite Ei2. cbn [bind].
    destruct (serial_ok D _ HD t1 _ i1 A1' Hi1) as (l1 & El1 & Hl1). destruct (serial_ok D _ HD t2 _ i2 A2' Hi2) as (l2 & El2 & Hl2).
    rewrite El1. cbn [bind]. rewrite El2. cbn [bind].
    assert (G : good_size D (List.length ss)).
    { apply (good_of _ _ _ _ Rp1). intro Z0. destruct ss; [congruence|discriminate]. }
    destruct (final_ok D _ (exps_of D (List.length ss) (p1 :: t1)) (exps_of D (List.length ss) (p2 :: t2)) l1 l2 HD G (HE _) (HE _)) as (b & Eb & Hb).
    + eapply lims_ext; [|exact Hl1]. intros ws. split.
      * intros [->|(q & I & Rq)]; [exists p1|exists q]; split; auto; [left; auto|right; auto].
      * intros (q & [<-|I] & Rq); [left; eapply rep_unique; eauto|right; exists q; auto].
    + eapply lims_ext; [|exact Hl2]. intros ws. split.
      * intros [->|(q & I & Rq)]; [exists p2|exists q]; split; auto; [left; auto|right; auto].
      * intros (q & [<-|I] & Rq); [left; eapply rep_unique; eauto|right; exists q; auto].
    + exists b. split; [exact Eb|]. apply CONV. exact Hb.
  - inversion A1 as [|? ? (vs1 & Rp1) A1']; subst. inversion A2 as [|? ? (vs2 & Rp2) A2']; subst.
    destruct (init_ok _ _ _ _ HD Rp1) as (j1 & Ei1 & Hi1). destruct (init_ok _ _ _ _ HD Rp2) as (j2 & Ei2 & Hi2).
    rewrite E1 in Ei1. inversion Ei1; subst j1. rewrite E2 in Ei2. inversion Ei2; subst j2.
    pose proof (par_ok D _ vs1 HD _ _ _ _ R1 Hi1 A1' _ eq_refl Hi1) as Hl1.
    pose proof (par_ok D _ vs2 HD _ _ _ _ R2 Hi2 A2' _ eq_refl Hi2) as Hl2.
    assert (G : good_size D (List.length ss)).
    { apply (good_of _ _ _ _ Rp1). intro Z0. destruct ss; [congruence|discriminate]. }
    destruct (final_ok D _ (exps_of D (List.length ss) (p1 :: t1)) (exps_of D (List.length ss) (p2 :: t2)) l1 l2 HD G (HE _) (HE _)) as (b & Eb & Hb).
    + eapply lims_ext; [|exact Hl1]. intros ws. split.
      * intros [->|(q & I & Rq)]; [exists p1|exists q]; split; auto; [left; auto|right; auto].
      * intros (q & [<-|I] & Rq); [left; eapply rep_unique; eauto|right; exists q; auto].
    + eapply lims_ext; [|exact Hl2]. intros ws. split.
      * intros [->|(q & I & Rq)]; [exists p2|exists q]; split; auto; [left; auto|right; auto].
      * intros (q & [<-|I] & Rq); [left; eapply rep_unique; eauto|right; exists q; auto].
    + exists b. split; [exact Eb|]. apply CONV. exact Hb.
Qed.

(** Some verdict exists. *)
Lemma overflow_check_exists D ra ss r1 r2 : packable D -> all_rep D (List.length ss) r1 -> all_rep D (List.length ss) r2 ->
  exists v, pm_overflow_check D ra ss r1 r2 v.
Proof.
  intros HD A1 A2. destruct ss as [|s ss]; [eexists; apply oc_no_symbols; reflexivity|].
  destruct r1 as [|p1 r1]; [eexists; apply oc_empty; [discriminate|auto]|].
  destruct r2 as [|p2 r2]; [eexists; apply oc_empty; [discriminate|auto]|].
  inversion A1 as [|? ? (vs1 & Rp1) A1']; subst. inversion A2 as [|? ? (vs2 & Rp2) A2']; subst.
  destruct (pm_par_path ra (p1 :: r1) (p2 :: r2)) eqn:PP; [|eexists; apply oc_serial; [discriminate|exact PP]].
  destruct (init_ok _ _ _ _ HD Rp1) as (i1 & Ei1 & Hi1). destruct (init_ok _ _ _ _ HD Rp2) as (i2 & Ei2 & Hi2).
  destruct (serial_ok D _ HD r1 _ i1 A1' Hi1) as (l1 & El1 & _). destruct (serial_ok D _ HD r2 _ i2 A2' Hi2) as (l2 & El2 & _).
  eexists. eapply oc_parallel; [discriminate|exact PP|exact Ei1|exact Ei2|apply par_run; exact El1|apply par_run; exact El2].
Qed.

Lemma oc_serial_eq D ra ss p1 r1 p2 r2 v : ss <> [] -> pm_par_path ra (p1 :: r1) (p2 :: r2) = false ->
  (i1 <- pm_init_limits D (List.length ss) p1 ;;
   i2 <- pm_init_limits D (List.length ss) p2 ;;
   l1 <- pm_limits_serial D (List.length ss) r1 i1 ;;
   l2 <- pm_limits_serial D (List.length ss) r2 i2 ;;
   '(lim_min, lim_max) <- kpack_get_lims D (List.length ss) ;;
   pm_check_sums D lim_min lim_max (List.length ss) l1 l2) = v ->
  pm_overflow_check D ra ss (p1 :: r1) (p2 :: r2) v.
Proof. intros A B <-. apply oc_serial; auto. Qed.

Lemma oc_parallel_eq D ra ss p1 r1 p2 r2 i1 i2 l1 l2 v :
  ss <> [] -> pm_par_path ra (p1 :: r1) (p2 :: r2) = true ->
  pm_init_limits D (List.length ss) p1 = Ok i1 ->
  pm_init_limits D (List.length ss) p2 = Ok i2 ->
  par_reduce (pm_update_limits D (List.length ss)) (pm_join D (List.length ss)) i1 i1 r1 l1 ->
  par_reduce (pm_update_limits D (List.length ss)) (pm_join D (List.length ss)) i2 i2 r2 l2 ->
  ('(lim_min, lim_max) <- kpack_get_lims D (List.length ss) ;;
   pm_check_sums D lim_min lim_max (List.length ss) l1 l2) = v ->
  pm_overflow_check D ra ss (p1 :: r1) (p2 :: r2) v.
Proof. intros A B C E F G <-. eapply oc_parallel; eauto. Qed.

(** Decision procedures for the concrete cases. *)
Definition representsb (D : kdata) (n : nat) (p : Z) (vs : list Z) : bool :=
  (List.length vs =? n)%nat && (n <=? max_size D)%nat && forallb (comp_okb D n) vs && (p =? kron (delta D n) vs).
Lemma representsb_ok D n p vs : representsb D n p vs = true -> represents D n p vs.
Proof.
  unfold representsb. rewrite !andb_true_iff, Nat.eqb_eq, Nat.leb_le, Z.eqb_eq, all_okb_iff.
  intros (((A & B) & C) & E). repeat split; auto.
Qed.
Lemma representableb_ok D vs : (List.length vs <=? max_size D)%nat && forallb (comp_okb D (List.length vs)) vs = true -> representable D vs.
Proof. rewrite andb_true_iff, Nat.leb_le, all_okb_iff. intros [A B]. split; auto. Qed.
