(** Property C105: the statistics of a series. *)
From Coq Require Import ZArith List Bool String Arith Permutation Lia.
From Verif Require Import Base SymModel KeyOps SeriesModel SeriesSpec SeriesProofs PrintModel P_Series2 SizeModel P_Size StatsModel.
Import ListNotations.
Open Scope Z_scope.
Open Scope res_scope.
Local Notation len := List.length.

Section PStats.
Context {K C Tag : Type} (B : sizes K C Tag) (show : Z -> Z -> string).
Notation series := (series K C Tag).

(** What is printed: the number of terms and of tables, the average if there are terms, the sizes of a smallest and of a largest table, the bytes. *)
Definition stats_lines (nterms ntables bytes : Z) (minmax : option (Z * Z)) : string :=
  ("Total number of terms             : " ++ z_string nterms ++ nl ++
   "Total number of tables            : " ++ z_string ntables ++ nl ++
   match minmax with
   | Some (lo, hi) => "Average terms per table           : " ++ show nterms ntables ++ nl ++ "Min/max terms per table           : " ++ z_string lo ++ "/" ++ z_string hi ++ nl
   | None => ""
   end ++
   "Total size in bytes               : " ++ z_string bytes ++ nl)%string.

Lemma minmax_bounds : forall (l done : list (table K C)) mm, In (fst mm) done -> In (snd mm) done -> (forall t, In t done -> (len (fst mm) <= len t <= len (snd mm))%nat) ->
  let r := fold_left (fun mm t => (if (len t <? len (fst mm))%nat then t else fst mm, if (len t <? len (snd mm))%nat then snd mm else t)) l mm in
  In (fst r) (done ++ l) /\ In (snd r) (done ++ l) /\ forall t, In t (done ++ l) -> (len (fst r) <= len t <= len (snd r))%nat.
Proof.
  induction l as [|t l IH]; intros done mm I1 I2 H; cbn [fold_left].
  - rewrite app_nil_r. auto.
  - replace (done ++ t :: l) with ((done ++ [t]) ++ l) by (rewrite <- app_assoc; reflexivity). apply IH; cbn [fst snd].
    + destruct (len t <? len (fst mm))%nat; apply in_or_app; [right; left; reflexivity|auto].
    + destruct (len t <? len (snd mm))%nat; apply in_or_app; [auto|right; left; reflexivity].
    + intros u J. pose proof (H _ I1) as X1. apply in_app_or in J as [J|[<-|[]]]; [pose proof (H _ J) as X2|];
        destruct (Nat.ltb_spec (len t) (len (fst mm))), (Nat.ltb_spec (len t) (len (snd mm))); lia.
Qed.
Lemma sum_bounds lo hi : forall l : list (table K C), (forall t, In t l -> (lo <= len t <= hi)%nat) -> (lo * len l <= len (List.concat l) <= hi * len l)%nat.
Proof.
  induction l as [|t l IH]; intros H; cbn [List.concat len]; [lia|]. rewrite app_length. pose proof (H t (or_introl eq_refl)). specialize (IH (fun u J => H u (or_intror J))). lia.
Qed.

(** C105. *)
Theorem table_stats_exact : forall s : series, (exists out, table_stats B show s out) /\
  forall out, table_stats B show s out -> exists bytes, byte_size B s bytes /\
    match terms s with
    | [] => out = Ok (stats_lines 0 (Z.of_nat (len (s_tables s))) bytes None)
    | _ => exists tlo thi, In tlo (s_tables s) /\ In thi (s_tables s) /\ (forall t, In t (s_tables s) -> (len tlo <= len t <= len thi)%nat) /\
        (len tlo * len (s_tables s) <= len (terms s) <= len thi * len (s_tables s))%nat /\
        out = Ok (stats_lines (Z.of_nat (len (terms s))) (Z.of_nat (len (s_tables s))) bytes (Some (Z.of_nat (len tlo), Z.of_nat (len thi))))
    end.
Proof.
  intros s. split; [destruct (proj1 (byte_size_exact B s)) as (b & H); exists (stats_text show s b), b; auto|].
  intros out (b & HB & ->). exists b. split; [exact HB|]. unfold stats_text. rewrite (size_terms s). destruct (terms s) as [|e l0] eqn:ET.
  - cbn [len Z.of_nat Z.eqb negb bind]. reflexivity.
  - destruct (s_tables s) as [|t l] eqn:EL; [unfold terms in ET; rewrite EL in ET; discriminate|].
    destruct (minmax_bounds l [t] (t, t)) as (I1 & I2 & H); [left; reflexivity|left; reflexivity|intros u [<-|[]]; cbn [fst snd]; lia|]. cbn [app] in I1, I2, H.
    exists (fst (minmax_tables t l)), (snd (minmax_tables t l)). split; [exact I1|]. split; [exact I2|]. split; [exact H|]. split.
    + pose proof (sum_bounds _ _ (t :: l) H) as X. replace (len (List.concat (t :: l))) with (len (e :: l0)) in X by (rewrite <- ET; unfold terms; rewrite EL; reflexivity). exact X.
    + replace (Z.of_nat (len (e :: l0)) =? 0) with false by (symmetry; apply Z.eqb_neq; cbn [len]; lia). reflexivity.
Qed.
(** The statistics do not depend on the schedule of the reduction, and are defined for every object, moved from or not. *)
Theorem table_stats_unique : forall (s : series) out out', table_stats B show s out -> table_stats B show s out' -> out = out' /\ exists text, out = Ok text.
Proof.
  intros s out out' H H'. split.
  - destruct H as (b & HB & ->), H' as (b' & HB' & ->). f_equal. apply (byte_size_unobservable B s s b b'); auto.
  - destruct (proj2 (table_stats_exact s) out H) as (b & _ & R). destruct (terms s); [eauto|]. destruct R as (? & ? & _ & _ & _ & _ & R). eauto.
Qed.
End PStats.
Print Assumptions table_stats_exact.
Print Assumptions table_stats_unique.

(** ** Example: the object of C69, with three terms in four tables. *)
Example ex_stats : table_stats ex_sizes (fun _ _ => "0.75"%string) ex_x (Ok (stats_lines (fun _ _ => "0.75"%string) 3 4 280 (Some (0, 2)))) /\ (2 ^ s_log2 ex_x = 4)%nat /\
  stats_lines (fun _ _ => "0.75"%string) 3 4 280 (Some (0, 2)) = ("Total number of terms             : 3" ++ nl ++ "Total number of tables            : 4" ++ nl ++
    "Average terms per table           : 0.75" ++ nl ++ "Min/max terms per table           : 0/2" ++ nl ++ "Total size in bytes               : 280" ++ nl)%string.
Proof.
  split; [|split; vm_compute; reflexivity]. destruct ex_size as (r & H & E & _). exists r. split; [exact H|]. subst r. vm_compute. reflexivity.
Qed.
