(** Every interleaving of the segment tasks has the result of the sequential execution. *)
From Coq Require Import ZArith List Bool String Arith Lia Permutation.
From Verif Require Import Base SymModel KeyOps SeriesModel SeriesModel2 SeriesSpec PolyModel PolySpec PolyConc SeriesProofs.
Import ListNotations.
Open Scope Z_scope.
Open Scope res_scope.
Local Notation len := List.length.

Lemma nth_mid {A} (a b : list A) x y d j : nth j (a ++ x :: b) d = if Nat.eqb j (len a) then x else nth j (a ++ y :: b) d.
Proof.
  destruct (Nat.eqb_spec j (len a)) as [->|N]; [apply nth_middle|]. destruct (Nat.lt_ge_cases j (len a)) as [L|L]; [rewrite !app_nth1 by lia; reflexivity|].
  rewrite !app_nth2 by lia. destruct (j - len a)%nat eqn:Ej; [lia|reflexivity].
Qed.
Lemma set_nth_len {A} (l : list A) i a : (i < len l)%nat -> len (set_nth l i a) = len l.
Proof. intros L. unfold set_nth. rewrite app_length, firstn_length. cbn [List.length]. rewrite skipn_length. lia. Qed.
Lemma set_nth_same {A} (l : list A) i a : (i < len l)%nat -> nth_error (set_nth l i a) i = Some a.
Proof. intros L. unfold set_nth. rewrite nth_error_app2; rewrite firstn_length, Nat.min_l by lia; [|lia]. rewrite Nat.sub_diag. reflexivity. Qed.
Lemma set_nth_other {A} (l : list A) i j a : (i < len l)%nat -> i <> j -> nth_error (set_nth l i a) j = nth_error l j.
Proof.
  intros L N. unfold set_nth. destruct (Nat.lt_ge_cases j i) as [J|J].
  - rewrite nth_error_app1 by (rewrite firstn_length; lia). rewrite <- (firstn_skipn i l) at 2. rewrite nth_error_app1 by (rewrite firstn_length; lia). reflexivity.
  - rewrite nth_error_app2; rewrite firstn_length, Nat.min_l by lia; [|lia]. destruct (j - i)%nat eqn:Ej; [lia|]. cbn [nth_error].
    rewrite <- (firstn_skipn (S i) l) at 2. rewrite nth_error_app2; rewrite firstn_length, Nat.min_l by lia; [|lia]. f_equal. lia.
Qed.

Lemma concat_mid {A} (ws1 ws2 : list (list A)) w : List.concat (ws1 ++ w :: ws2) = List.concat ws1 ++ w ++ List.concat ws2.
Proof. rewrite concat_app. reflexivity. Qed.

(** The worker of a segment. *)
Fixpoint owner (blocks : list (list nat)) (s : nat) : nat :=
  match blocks with
  | [] => 0
  | b :: bs => if in_dec Nat.eq_dec s b then 0%nat else S (owner bs s)
  end.
Lemma owner_ok : forall blocks s j, NoDup (List.concat blocks) -> In s (nth j blocks []) -> owner blocks s = j.
Proof.
  induction blocks as [|b bs IH]; intros s j N I; [destruct j; destruct I|]. cbn [List.concat] in N. cbn [owner].
  assert (DJ : forall x, In x b -> ~ In x (List.concat bs)).
  { intros x Ib Ic. clear -N Ib Ic. induction b as [|y b IH]; [destruct Ib|]. cbn [app] in N. inversion N; subst. destruct Ib as [->|Ib]; [apply H1, in_or_app; auto|auto]. }
  assert (N' : NoDup (List.concat bs)). { clear -N. induction b as [|y b IH]; [exact N|]. cbn [app] in N. inversion N; auto. }
  destruct j as [|j]; cbn [nth] in I.
  - destruct (in_dec Nat.eq_dec s b); [reflexivity|contradiction].
  - assert (J : In s (List.concat bs)). { apply in_concat. exists (nth j bs []). split; [|exact I]. destruct (nth_in_or_default j bs []) as [X|X]; [exact X|rewrite X in I; destruct I]. }
    destruct (in_dec Nat.eq_dec s b) as [Ib|Ib]; [exfalso; eapply DJ; eauto|]. f_equal. apply IH; auto.
Qed.
Lemma nth_concat {A} (ls : list (list A)) j x : In x (nth j ls []) -> In x (List.concat ls).
Proof. intros I. apply in_concat. exists (nth j ls []). split; [|exact I]. destruct (nth_in_or_default j ls []) as [X|X]; [exact X|rewrite X in I; destruct I]. Qed.
Lemma concat_nth {A} (ls : list (list A)) x : In x (List.concat ls) -> exists j, In x (nth j ls []).
Proof. intros I. apply in_concat in I as (l & Il & I). apply In_nth with (d := []) in Il as (j & _ & <-). eauto. Qed.

Section CP.
Context {K C Tag : Type} (KO : key_ops K) (CO : cf_ops C) (PO : tbl_policy (K * C)) (ss : symbol_set) (log2 : nat).
Notation term := (K * C)%type.
Notation run := (rfold (fun tab i => exec KO CO PO ss log2 i tab)).

Lemma run_program (pairs : res (list (term * term))) tab : run (program pairs) tab = (ps <- pairs ;; segment_task KO CO PO ss log2 ps tab).
Proof.
  destruct pairs as [ps|e|]; [|reflexivity|reflexivity]. cbn [program bind]. unfold segment_task. revert tab. induction ps as [|p ps IH]; intros tab.
  - cbn [map app rfold exec bind]. destruct (max_table_size log2 <? _); reflexivity.
  - cbn [map app rfold exec]. destruct (accumulate KO CO PO ss tab p) as [tab'|e|]; cbn [bind]; auto.
Qed.

Variable tables0 : list (table K C).
Variable tasks : nat -> res (list (term * term)).
Variable blocks : list (list nat).
Hypothesis ND : NoDup (List.concat blocks).
Notation owner := (owner blocks).
Definition result (s : nat) : res (table K C) := match nth_error tables0 s with Some tab => run (program (tasks s)) tab | None => UB end.
Definition rem (ws : list (list (nat * instr))) (s : nat) : list (@instr K C) := map snd (filter (fun e => Nat.eqb (fst e) s) (nth (owner s) ws [])).

Record inv (st : @cstate K C) : Prop := {
  inv_owner : forall j s i, In (s, i) (nth j (cs_workers st) []) -> owner s = j /\ In s (List.concat blocks);
  inv_len : len (cs_tables st) = len tables0;
  inv_run : forall s, In s (List.concat blocks) -> cs_err st = None \/ rem (cs_workers st) s <> [] ->
    match nth_error (cs_tables st) s with Some tab => run (rem (cs_workers st) s) tab = result s | None => True end;
  inv_done : cs_err st = None -> Permutation (cs_done st ++ List.concat (cs_workers st)) (List.concat (map (block_work tasks) blocks));
  inv_err : forall f, cs_err st = Some f -> exists s, In s (List.concat blocks) /\ result s = failed f
}.

Lemma block_in s i b : In (s, i) (block_work tasks b) -> In s b.
Proof. unfold block_work. intros I. apply in_concat in I as (l & Il & I). apply in_map_iff in Il as (s' & <- & Is). apply in_map_iff in I as (i' & [= <- <-] & _). exact Is. Qed.
Lemma block_rem : forall b s, NoDup b -> In s b -> map snd (filter (fun e => Nat.eqb (fst e) s) (block_work tasks b)) = program (tasks s).
Proof.
  unfold block_work. induction b as [|s0 b IH]; intros s N I; [destruct I|]. cbn [map List.concat]. rewrite filter_app, map_app. inversion N; subst.
  assert (Q : forall (l : list (@instr K C)) a, filter (fun e => Nat.eqb (fst e) s) (map (pair a) l) = if Nat.eqb a s then map (pair a) l else []).
  { clear. intros l a. induction l as [|i l IH]; cbn [map filter fst]; [destruct (Nat.eqb a s); reflexivity|]. rewrite IH. destruct (Nat.eqb a s); reflexivity. }
  rewrite Q. destruct (Nat.eqb_spec s0 s) as [->|NE].
  - rewrite map_map. cbn [snd]. rewrite map_id. rewrite <- app_nil_r. f_equal. 
    assert (X : forall e, In e (List.concat (map (fun s1 => map (pair s1) (program (tasks s1))) b)) -> Nat.eqb (fst e) s = false).
    { intros [s' i'] I'. apply Nat.eqb_neq. cbn [fst]. intros ->. apply H1. apply (block_in s i' b). exact I'. }
    revert X. generalize (List.concat (map (fun s1 => map (pair s1) (program (tasks s1))) b)). intros l. induction l as [|e l IHl]; intros X; [reflexivity|]. cbn [filter]. rewrite X by (left; reflexivity). apply IHl. intros e' I'. apply X. right. exact I'.
  - cbn [map app]. apply IH; auto. destruct I; [contradiction|auto].
Qed.
Lemma nodup_nth : forall (bs : list (list nat)) j, NoDup (List.concat bs) -> NoDup (nth j bs []).
Proof.
  induction bs as [|b bs IH]; intros j N; [destruct j; constructor|]. cbn [List.concat] in N. destruct j as [|j]; cbn [nth].
  - clear -N. induction b as [|y b IH]; [constructor|]. cbn [app] in N. inversion N; subst. constructor; [intros I; apply H1, in_or_app; auto|auto].
  - apply IH. clear -N. induction b as [|y b IH]; [exact N|]. cbn [app] in N. inversion N; auto.
Qed.

Lemma inv_init : inv (cinit tables0 tasks blocks).
Proof.
  constructor; cbn [cinit cs_workers cs_tables cs_err cs_done].
  - intros j s i I. change (@nil (nat * instr)) with (block_work tasks []) in I. rewrite map_nth in I. apply block_in in I. split; [apply owner_ok; auto|eapply nth_concat; eauto].
  - reflexivity.
  - intros s I _. unfold result. destruct (nth_error tables0 s) as [tab|]; [|exact Logic.I]. f_equal. unfold rem.
    change (@nil (nat * instr)) with (block_work tasks []). rewrite map_nth. apply concat_nth in I as (j & I). pose proof (owner_ok blocks s j ND I) as O. rewrite O. apply block_rem; [apply nodup_nth; exact ND|exact I].
  - reflexivity.
  - discriminate.
Qed.

Lemma inv_step st st' : inv st -> cstep KO CO PO ss log2 st st' -> inv st'.
Proof.
  intros [IO IL IR ID IE] ST. destruct ST as [ts ws1 s i w ws2 err d tab tab' Et Ex|ts ws1 s i w ws2 err err' d f Hf He|ts ws1 w ws2 f d]; cbn [cs_workers cs_tables cs_err cs_done] in *.
  - assert (Ls : (s < len ts)%nat) by (apply nth_error_Some; congruence). destruct (IO (len ws1) s i) as [Os Is]; [rewrite nth_middle; left; reflexivity|].
    constructor; cbn [cs_workers cs_tables cs_err cs_done].
    + intros j s' i' I'. apply (IO j s' i'). rewrite (nth_mid ws1 ws2 w ((s, i) :: w)) in I'. destruct (Nat.eqb_spec j (len ws1)) as [->|N]; [rewrite nth_middle; right; exact I'|exact I'].
    + rewrite set_nth_len; auto.
    + intros s' Is' H. specialize (IR s' Is'). unfold rem in *. destruct (Nat.eq_dec s' s) as [->|NE].
      * rewrite set_nth_same by exact Ls. rewrite Et in IR. rewrite Os, nth_middle in *. cbn [filter fst] in IR. rewrite Nat.eqb_refl in IR. cbn [map snd rfold] in IR. rewrite Ex in IR. cbn [bind] in IR. apply IR. right. discriminate.
      * rewrite set_nth_other by auto.
        assert (Q : filter (fun e => Nat.eqb (fst e) s') (nth (owner s') (ws1 ++ w :: ws2) []) = filter (fun e => Nat.eqb (fst e) s') (nth (owner s') (ws1 ++ ((s, i) :: w) :: ws2) [])).
        { rewrite (nth_mid ws1 ws2 w ((s, i) :: w)). destruct (Nat.eqb_spec (owner s') (len ws1)) as [E0|N]; [|reflexivity]. rewrite E0, nth_middle. cbn [filter fst]. destruct (Nat.eqb_spec s s'); [congruence|reflexivity]. }
        rewrite Q in *. apply IR. exact H.
    + intros ->. specialize (ID eq_refl). etransitivity; [|exact ID]. rewrite !concat_mid. rewrite <- app_assoc. cbn [app]. apply Permutation_app_head. apply Permutation_middle.
    + exact IE.
  - destruct (IO (len ws1) s i) as [Os Is]; [rewrite nth_middle; left; reflexivity|].
    assert (NN : err' <> None) by (destruct He as [->|[X ->]]; [discriminate|exact X]).
    constructor; cbn [cs_workers cs_tables cs_err cs_done].
    + intros j s' i' I'. apply (IO j s' i'). rewrite (nth_mid ws1 ws2 [] ((s, i) :: w)) in I'. destruct (Nat.eqb_spec j (len ws1)) as [->|N]; [destruct I'|exact I'].
    + exact IL.
    + intros s' Is' [H|H]; [contradiction|]. specialize (IR s' Is'). unfold rem in *. rewrite (nth_mid ws1 ws2 [] ((s, i) :: w)) in *.
      destruct (Nat.eqb_spec (owner s') (len ws1)) as [E0|N]; [exfalso; apply H; reflexivity|]. apply IR. right. exact H.
    + intros X. contradiction.
    + intros f' Ef. destruct He as [->|[_ ->]]; [|apply IE; exact Ef]. injection Ef as <-. exists s. split; [exact Is|]. specialize (IR s Is). unfold rem in IR. destruct Hf as [[En ->]|(tab & Et & Ex)].
      * unfold result. apply nth_error_None in En. rewrite IL in En. apply nth_error_None in En. rewrite En. reflexivity.
      * rewrite Et in IR. rewrite Os, nth_middle in IR. cbn [filter fst] in IR. rewrite Nat.eqb_refl in IR. cbn [map snd rfold] in IR. rewrite Ex in IR. rewrite <- IR by (right; discriminate). destruct f; reflexivity.
  - constructor; cbn [cs_workers cs_tables cs_err cs_done]; auto.
    + intros j s' i' I'. apply (IO j s' i'). rewrite (nth_mid ws1 ws2 [] w) in I'. destruct (Nat.eqb_spec j (len ws1)) as [->|N]; [destruct I'|exact I'].
    + intros s' Is' [H|H]; [discriminate|]. specialize (IR s' Is'). unfold rem in *. rewrite (nth_mid ws1 ws2 [] w) in *.
      destruct (Nat.eqb_spec (owner s') (len ws1)) as [E0|N]; [exfalso; apply H; reflexivity|]. apply IR. right. exact H.
    + intros X. discriminate.
Qed.

Lemma inv_steps st : csteps KO CO PO ss log2 (cinit tables0 tasks blocks) st -> inv st.
Proof. intros H. remember (cinit tables0 tasks blocks) as st0 eqn:E0. induction H as [s0|s1 s2 s3 H IH S]; [subst; apply inv_init|]. eapply inv_step; [apply IH; exact E0|exact S]. Qed.

(** No two workers are about to access the same table. *)
Lemma no_race st j j' s s' i i' w w' : csteps KO CO PO ss log2 (cinit tables0 tasks blocks) st -> j <> j' ->
  nth_error (cs_workers st) j = Some ((s, i) :: w) -> nth_error (cs_workers st) j' = Some ((s', i') :: w') -> s <> s'.
Proof.
  intros H N E1 E2 ->. destruct (inv_steps st H) as [IO _ _ _ _]. apply N.
  destruct (IO j s' i) as [O1 _]; [apply (nth_error_nth _ _ []) in E1; rewrite E1; left; reflexivity|].
  destruct (IO j' s' i') as [O2 _]; [apply (nth_error_nth _ _ []) in E2; rewrite E2; left; reflexivity|]. congruence.
Qed.

Lemma finished_concat (ws : list (list (nat * @instr K C))) : Forall (fun w => w = []) ws -> List.concat ws = [].
Proof. induction 1 as [|w ws -> _ IH]; [reflexivity|exact IH]. Qed.
Lemma finished_nth (ws : list (list (nat * @instr K C))) j : Forall (fun w => w = []) ws -> nth j ws [] = [].
Proof. intros F. destruct (nth_in_or_default j ws []) as [I|E]; [|exact E]. rewrite Forall_forall in F. apply F, I. Qed.

(** The result of a finished execution. *)
Lemma conc_result n st : Permutation (List.concat blocks) (seq 0 n) -> len tables0 = n -> csteps KO CO PO ss log2 (cinit tables0 tasks blocks) st -> finished st ->
  let seqr := rmap (fun s => ps <- tasks s ;; tab <- rd tables0 s ;; segment_task KO CO PO ss log2 ps tab) (seq 0 n) in
  match cs_err st with
  | None => seqr = Ok (cs_tables st) /\ Permutation (cs_done st) (List.concat (map (fun s => map (pair s) (program (tasks s))) (seq 0 n)))
  | Some f => exists s, (s < n)%nat /\ result s = failed f
  end.
Proof.
  intros PB L0 ST FIN. destruct (inv_steps st ST) as [IO IL IR ID IE]. cbv zeta. destruct (cs_err st) as [f|] eqn:EE.
  - destruct (IE f eq_refl) as (s & Is & Hs). exists s. split; [|exact Hs]. eapply Permutation_in in Is; [|exact PB]. apply in_seq in Is. lia.
  - split.
    + assert (R : forall s, (s < n)%nat -> exists tab, nth_error (cs_tables st) s = Some tab /\ (ps <- tasks s ;; tab <- rd tables0 s ;; segment_task KO CO PO ss log2 ps tab) = Ok tab).
      { intros s Hs. assert (Is : In s (List.concat blocks)) by (eapply Permutation_in; [symmetry; exact PB|apply in_seq; lia]).
        specialize (IR s Is (or_introl eq_refl)). destruct (nth_error (cs_tables st) s) as [tab|] eqn:Et; [|exfalso; apply nth_error_None in Et; lia].
        exists tab. split; [reflexivity|]. unfold rem in IR. rewrite finished_nth in IR by exact FIN. cbn [filter map rfold] in IR. unfold result in IR.
        destruct (nth_error tables0 s) as [tab0|] eqn:E0; [|discriminate]. rewrite run_program in IR. unfold rd. rewrite E0. rewrite IR. destruct (tasks s); reflexivity. }
      assert (X : forall l k (ts : list (table K C)), (forall j, (j < len ts)%nat -> exists tab, nth_error ts j = Some tab /\ (ps <- tasks (k + j)%nat ;; tab <- rd tables0 (k + j)%nat ;; segment_task KO CO PO ss log2 ps tab) = Ok tab) -> l = len ts ->
        rmap (fun s => ps <- tasks s ;; tab <- rd tables0 s ;; segment_task KO CO PO ss log2 ps tab) (seq k l) = Ok ts).
      { clear. induction l as [|l IH]; intros k ts H L; destruct ts as [|t ts]; try discriminate; [reflexivity|]. cbn [seq rmap].
        destruct (H 0%nat) as (tab & [= <-] & Er); [cbn; lia|]. rewrite Nat.add_0_r in Er. rewrite Er. cbn [bind]. rewrite (IH (S k) ts); [reflexivity| |cbn in L; lia].
        intros j Hj. destruct (H (S j)) as (tab & Et & Er'); [cbn; lia|]. exists tab. split; [exact Et|]. rewrite Nat.add_succ_r in Er'. exact Er'. }
      apply X; [|rewrite IL; auto]. intros j Hj. apply R. rewrite <- L0, <- IL. exact Hj.
    + specialize (ID eq_refl). rewrite finished_concat, app_nil_r in ID by exact FIN. etransitivity; [exact ID|]. unfold block_work.
      clear -PB. transitivity (List.concat (map (fun s => map (pair s) (program (tasks s))) (List.concat blocks))).
      * clear. induction blocks as [|b bs IH]; [reflexivity|]. cbn [map List.concat]. rewrite map_app, concat_app. apply Permutation_app_head. exact IH.
      * rewrite <- !flat_map_concat_map. apply Permutation_flat_map. exact PB.
Qed.

(** Progress and termination. *)
Definition work (st : @cstate K C) : nat := len (List.concat (cs_workers st)).
Lemma step_work st st' : cstep KO CO PO ss log2 st st' -> (work st' < work st)%nat \/ ((exists ws1 w ws2, cs_workers st = ws1 ++ w :: ws2 /\ cs_workers st' = ws1 ++ [] :: ws2) /\ cs_err st <> None /\ (work st' <= work st)%nat).
Proof.
  intros ST. unfold work. destruct ST as [ts ws1 s i w ws2 err d tab tab' Et Ex|ts ws1 s i w ws2 err err' d f Hf He|ts ws1 w ws2 f d]; cbn [cs_workers cs_err]; rewrite !concat_mid, !app_length; cbn [List.length].
  - left. lia.
  - left. lia.
  - right. split; [eauto|]. split; [discriminate|lia].
Qed.
Lemma progress st : finished st \/ exists st', cstep KO CO PO ss log2 st st' /\ (work st' < work st)%nat.
Proof.
  destruct st as [ts ws err d]. unfold finished, work. cbn [cs_workers].
  assert (X : Forall (fun w => w = []) ws \/ exists ws1 s i w ws2, ws = ws1 ++ ((s, i) :: w) :: ws2).
  { induction ws as [|w ws IH]; [left; constructor|]. destruct w as [|[s i] w]; [|right; exists [], s, i, w, ws; reflexivity].
    destruct IH as [F|(ws1 & s & i & w & ws2 & ->)]; [left; constructor; auto|right; exists ([] :: ws1), s, i, w, ws2; reflexivity]. }
  destruct X as [F|(ws1 & s & i & w & ws2 & ->)]; [left; exact F|right].
  destruct (nth_error ts s) as [tab|] eqn:Et; [destruct (exec KO CO PO ss log2 i tab) as [tab'|e|] eqn:Ex|].
  - eexists. split; [eapply step_ok; eauto|]. cbn [cs_workers]. rewrite !concat_mid, !app_length. cbn [List.length]. lia.
  - eexists. split; [apply step_fail with (f := FThrow e); [right; exists tab; auto|left; reflexivity]|]. cbn [cs_workers]. rewrite !concat_mid, !app_length. cbn [List.length]. lia.
  - eexists. split; [apply step_fail with (f := FUB); [right; exists tab; auto|left; reflexivity]|]. cbn [cs_workers]. rewrite !concat_mid, !app_length. cbn [List.length]. lia.
  - eexists. split; [apply step_fail with (f := FUB); [left; auto|left; reflexivity]|]. cbn [cs_workers]. rewrite !concat_mid, !app_length. cbn [List.length]. lia.
Qed.
Lemma can_finish : forall n st, (work st <= n)%nat -> exists st', csteps KO CO PO ss log2 st st' /\ finished st'.
Proof.
  induction n as [|n IH]; intros st L.
  - destruct (progress st) as [F|(st' & _ & X)]; [exists st; split; [constructor|exact F]|lia].
  - destruct (progress st) as [F|(st1 & S & X)]; [exists st; split; [constructor|exact F]|]. destruct (IH st1 ltac:(lia)) as (st' & SS & F). exists st'. split; [|exact F].
    clear -S SS. induction SS as [s0|s1 s2 s3 H IH S']; [econstructor; [constructor|exact S]|]. econstructor; [apply IH; exact S|exact S'].
Qed.
End CP.
