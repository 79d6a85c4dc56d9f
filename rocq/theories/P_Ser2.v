(** C47 for power series and polynomials with the key types of obake; examples. *)
From Coq Require Import ZArith List Bool String Arith Permutation Lia.
From Verif Require Import Base KpackModel KpackSpec KpackProofs P_Kpack IntModel IntSpec IntProofs SymModel SymSpec PMonModel PMonSpec PMonProofs PMonProofs2 DPMModel DPMSpec DPMProofs KeyOps KeyInst
  SeriesModel SeriesSpec SeriesProofs SeriesProofs2 CfInst P_Series2 P_Poly2 PSModel PSSpec P_PS4 SerModel SerSpec P_Ser.
Import ListNotations.
Open Scope Z_scope.
Open Scope res_scope.
Local Notation len := List.length.

(** Arbitrary-precision integers as coefficients: one value of any size. *)
Definition z_load (ar : archive) : res (Z * archive) := match ar with TI n :: ar' => Ok (n, ar') | _ => Throw archive_exception end.
Lemma reads_z z : reads z_load (out_int z) z.
Proof. split; [reflexivity|]. intros p q E N. destruct p as [|x p]; [reflexivity|]. injection E as _ E. destruct p, q; try discriminate. congruence. Qed.

(** Power series over packed_monomial and d_packed_monomial, any coefficients that can be read back. *)
Theorem pm_ps_round_trip : forall {C} (CO : cf_ops C) PO D (c_save : C -> archive) c_load (s x : series Z C trunc_t) rest, packable D -> (forall c, reads c_load (c_save c) c) ->
  wf (pm_ops D) (pm_sem D) CO s -> storable s -> trunc_ok (kd_ty D) (s_tag s) -> (forall d ss, s_tag s = partial_truncation d ss -> sized ss) ->
  exists r, series_load (pm_ops D) CO PO ps_tag_ops (pm_load D) c_load (trunc_load (kd_ty D)) x (series_save pm_save c_save trunc_save s ++ rest) = (Ok rest, r) /\ same_series r s /\ wf (pm_ops D) (pm_sem D) CO r.
Proof.
  intros C CO PO D c_save c_load s x rest HD HC W ST T S. apply series_round_trip; [apply pm_key_laws; exact HD|exact W|exact ST|]. split; [apply trunc_round_trip; auto|]. intros k c I. split; [|apply HC].
  pose proof (wf_valid _ _ _ _ W k c I) as [vs R]. eapply pm_round_trip; eauto.
Qed.
Theorem dpm_ps_round_trip : forall {C} (CO : cf_ops C) PO D ps (c_save : C -> archive) c_load (s x : series dpm C trunc_t) rest, packable D -> psize_ok D ps -> (forall c, reads c_load (c_save c) c) ->
  wf (dpm_ops D ps) (dpm_sem D ps) CO s -> storable s -> (forall k c, In (k, c) (terms s) -> sized k) -> trunc_ok (kd_ty D) (s_tag s) -> (forall d ss, s_tag s = partial_truncation d ss -> sized ss) ->
  exists r, series_load (dpm_ops D ps) CO PO ps_tag_ops (dpm_load D) c_load (trunc_load (kd_ty D)) x (series_save dpm_save c_save trunc_save s ++ rest) = (Ok rest, r) /\ same_series r s /\ wf (dpm_ops D ps) (dpm_sem D ps) CO r.
Proof.
  intros C CO PO D ps c_save c_load s x rest HD HP HC W ST SK T S. apply series_round_trip; [apply dpm_key_laws; auto|exact W|exact ST|]. split; [apply trunc_round_trip; auto|]. intros k c I. split; [|apply HC].
  pose proof (wf_valid _ _ _ _ W k c I) as [vs R]. eapply dpm_round_trip; eauto.
Qed.

(** The series ps_x of P_PS4.v (four terms, two segments, truncation 2), loaded into ps_z, and an archive that ends early. *)
Definition ex_save := series_save pm_save out_int trunc_save ps_x.
Definition ex_load := series_load exK Z_cf exP ps_tag_ops (pm_load kd_int64) z_load (trunc_load (kd_ty kd_int64)) ps_z.
Lemma ps_x_storable : storable ps_x.
Proof.
  destruct ps_x_wf as (_ & S & _). split; [rewrite S; vm_compute; discriminate|]. intros t I. assert (A : forallb (fun t => Z.of_nat (len t) <=? imax size_t) (s_tables ps_x) = true) by (vm_compute; reflexivity).
  rewrite forallb_forall in A. apply Z.leb_le. exact (A t I).
Qed.
Lemma ps_x_parts : parts_read pm_save (pm_load kd_int64) out_int z_load trunc_save (trunc_load (kd_ty kd_int64)) ps_x.
Proof.
  destruct ps_x_wf as (W & _ & _ & T), ps_trunc_ok as (TK & _). split; [apply trunc_round_trip; [exact TK|rewrite T; discriminate]|]. intros k c I. split; [|apply reads_z].
  pose proof (wf_valid _ _ _ _ W k c I) as [vs R]. eapply pm_round_trip; [right; right; left; reflexivity|exact R].
Qed.
Example ex_round_trip : exists r, ex_load (ex_save ++ [TI 77]) = (Ok [TI 77], r) /\ s_tag r = total_truncation 2 /\ series_size r = 4%nat /\ s_log2 r = 1%nat /\ coef exS Z_cf ["a"; "b"]%string r [1; 1] = 5.
Proof. eexists. do 4 (split; [vm_compute; reflexivity|]). vm_compute; reflexivity. Qed.
Example ex_cut : len ex_save = 16%nat /\ forallb (fun n => match ex_load (firstn n ex_save) with (Throw archive_exception, r) => series_empty r | _ => false end) (seq 0 16) = true.
Proof. split; vm_compute; reflexivity. Qed.
Print Assumptions pm_ps_round_trip.
Print Assumptions dpm_ps_round_trip.
