(** The multiplication of polynomials with different coefficient types does what that of PolyModel.v does with the converted coefficients. *)
From Coq Require Import ZArith List Bool String Arith Lia Permutation Sorted.
From Verif Require Import Base SymModel KeyOps SeriesModel SeriesModel2 PolyModel MixModel.
Import ListNotations.
Open Scope Z_scope.
Open Scope res_scope.
Local Notation len := List.length.

Definition rmapr {A B : Type} (f : A -> B) (r : res A) : res B := a <- r ;; Ok (f a).
Lemma bind_rmapr {A B C} (f : A -> B) (r : res A) (k : B -> res C) : bind (rmapr f r) k = bind r (fun a => k (f a)).
Proof. destruct r; reflexivity. Qed.
Lemma rmapr_bind {A B C} (f : B -> C) (r : res A) (k : A -> res B) : rmapr f (bind r k) = bind r (fun a => rmapr f (k a)).
Proof. destruct r; reflexivity. Qed.
Lemma bind_cong {A B} (r : res A) (k k' : A -> res B) : (forall a, k a = k' a) -> bind r k = bind r k'.
Proof. intros H. destruct r; cbn; auto. Qed.
Lemma rmap_map {A B C} (F : B -> res C) (g : A -> B) l : rmap F (map g l) = rmap (fun a => F (g a)) l.
Proof. induction l as [|a l IH]; cbn; [reflexivity|]. rewrite IH. reflexivity. Qed.
Lemma rmap_cong {A B} (F G : A -> res B) l : (forall a, F a = G a) -> rmap F l = rmap G l.
Proof. intros H. induction l as [|a l IH]; cbn; [reflexivity|]. rewrite H, IH. reflexivity. Qed.
Lemma rmap_rmapr {A B C} (F : A -> res B) (f : B -> C) l : rmap (fun a => rmapr f (F a)) l = rmapr (map f) (rmap F l).
Proof.
  induction l as [|a l IH]; cbn; [reflexivity|]. destruct (F a); cbn; try reflexivity. rewrite IH. destruct (rmap F l); reflexivity.
Qed.
Lemma rd_map {A B} (f : A -> B) l i : rd (map f l) i = rmapr f (rd l i).
Proof. unfold rd. rewrite nth_error_map. destruct (nth_error l i); reflexivity. Qed.
Lemma permuted_map {A B} (f : A -> B) l is : permuted (map f l) is = rmapr (map f) (permuted l is).
Proof. unfold permuted. rewrite <- rmap_rmapr. apply rmap_cong. intros i. apply rd_map. Qed.
Lemma bsearch_cong right right' : (forall j, right j = right' j) -> forall fuel first n, bsearch right fuel first n = bsearch right' fuel first n.
Proof. intros H. induction fuel as [|f IH]; intros first n; cbn; [reflexivity|]. rewrite H. destruct (n =? 0)%nat; [reflexivity|]. apply bind_cong. intros []; apply IH. Qed.
Lemma pick_all_map {A B} (f : A -> B) l is : pick_all (map f l) is = map f (pick_all l is).
Proof.
  unfold pick_all. induction is as [|i is IH]; cbn; [reflexivity|]. rewrite map_app, <- IH, nth_error_map. destruct (nth_error l i); reflexivity.
Qed.
Lemma sort_by_map {A B} perm (g : A -> B) f l : sort_by perm B f (map g l) = map g (sort_by perm A (fun a => f (g a)) l).
Proof. unfold sort_by. rewrite map_map. apply pick_all_map. Qed.
Lemma slice_map' {A B} (f : A -> B) l b e : slice (map f l) b e = map f (slice l b e).
Proof. unfold slice. rewrite skipn_map, firstn_map. reflexivity. Qed.

(** ** One operand *)
Section One.
Context {K C C' Tag : Type} (KO : key_ops K) (f : C' -> C).
Definition gt (e : K * C') : K * C := (fst e, f (snd e)).
Context (E : mul_env K C Tag) (E' : mul_env K C' Tag) (perm : list Z -> list nat).
Hypothesis HE : forall A k l, me_sort E k l = sort_by perm A k l.
Hypothesis HE' : forall A k l, me_sort E' k l = sort_by perm A k l.

Lemma degree_vector_map t ss v : degree_vector t ss (map gt v) = degree_vector t ss v.
Proof. unfold degree_vector. rewrite rmap_map. reflexivity. Qed.
Lemma degree_sorted_map t ss v : degree_sorted E t ss (map gt v) = rmapr (fun p => (map gt (fst p), snd p)) (degree_sorted E' t ss v).
Proof.
  unfold degree_sorted. rewrite degree_vector_map. destruct (degree_vector t ss v) as [vd| |]; cbn [bind rmapr]; try reflexivity.
  rewrite HE, HE'. destruct (permuted vd _) as [vd'| |]; cbn [bind rmapr]; try reflexivity.
  rewrite permuted_map. destruct (permuted v _) as [v'| |]; reflexivity.
Qed.
Lemma seg_of_map log2 e : seg_of KO log2 (gt e) = seg_of KO log2 e. Proof. reflexivity. Qed.
Lemma seg_upper_map log2 v b it : seg_upper KO log2 (map gt v) b it = seg_upper KO log2 v b it.
Proof.
  unfold seg_upper, search. rewrite map_length. apply bsearch_cong. intros j. rewrite rd_map. destruct (rd v j); reflexivity.
Qed.
Lemma vseg_sparse_map log2 v : forall fuel it, vseg_sparse KO fuel log2 (map gt v) it = vseg_sparse KO fuel log2 v it.
Proof.
  induction fuel as [|n IH]; intros it; cbn [vseg_sparse]; [reflexivity|]. rewrite map_length. destruct (it =? len v)%nat; [reflexivity|].
  rewrite rd_map, bind_rmapr. apply bind_cong. intros e. rewrite seg_of_map, seg_upper_map. apply bind_cong. intros re. rewrite IH. reflexivity.
Qed.
Lemma vseg_dense_map log2 v : forall is it, vseg_dense KO log2 (map gt v) it is = vseg_dense KO log2 v it is.
Proof.
  induction is as [|i is IH]; intros it; cbn [vseg_dense]; [reflexivity|]. rewrite seg_upper_map. apply bind_cong. intros it'. rewrite IH. reflexivity.
Qed.
Lemma compute_vseg_map log2 v : compute_vseg KO log2 (map gt v) = compute_vseg KO log2 v.
Proof. unfold compute_vseg. rewrite map_length, vseg_sparse_map, vseg_dense_map. reflexivity. Qed.
Lemma sort_slice_same vd : forall vseg vidx, fold_left (sort_slice E vd) vseg vidx = fold_left (sort_slice E' vd) vseg vidx.
Proof. induction vseg as [|r vseg IH]; intros vidx; cbn [fold_left]; [reflexivity|]. rewrite IH. unfold sort_slice. rewrite HE, HE'. reflexivity. Qed.
Lemma seg_sorted_map t ss v vseg : seg_sorted E t ss (map gt v) vseg = rmapr (fun p => (map gt (fst p), snd p)) (seg_sorted E' t ss v vseg).
Proof.
  unfold seg_sorted. rewrite degree_vector_map. destruct (degree_vector t ss v) as [vd| |]; cbn [bind rmapr]; try reflexivity.
  rewrite sort_slice_same. destruct (permuted vd _) as [vd'| |]; cbn [bind rmapr]; try reflexivity.
  rewrite permuted_map. destruct (permuted v _) as [v'| |]; reflexivity.
Qed.
(** The series with the coefficients converted. *)
Definition mapc (s : series K C' Tag) : series K C Tag := Series (map (map gt) (s_tables s)) (s_log2 s) (s_tag s) (s_ss s).
Lemma terms_mapc s : terms (mapc s) = map gt (terms s).
Proof. unfold terms, mapc. cbn [s_tables]. symmetry. apply concat_map. Qed.
Lemma empty_mapc s : series_empty (mapc s) = series_empty s.
Proof. unfold series_empty, mapc. cbn [s_tables]. induction (s_tables s) as [|tb l IH]; cbn; [reflexivity|]. rewrite IH. destruct tb; reflexivity. Qed.
End One.

Section Two.
Context {K C1 C2 C Tag : Type} (KO : key_ops K) (CO1 : cf_ops C1) (CO2 : cf_ops C2) (CO : cf_ops C) (cmul : mix_mul C1 C2 C)
  (PO1 : tbl_policy (K * C1)) (PO2 : tbl_policy (K * C2)) (PO : tbl_policy (K * C)) (TO : tag_ops Tag) (E : mix_env K C1 C2 Tag) (f1 : C1 -> C) (f2 : C2 -> C).
Hypothesis HM : forall a b, mm_mul cmul a b = c_mul CO (f1 a) (f2 b).
Hypothesis HF : forall c a b, mm_fma cmul c a b = c_fma CO c (f1 a) (f2 b).
Definition gp (p : (K * C1) * (K * C2)) : (K * C) * (K * C) := (gt f1 (fst p), gt f2 (snd p)).

Lemma accumulate_gp ss tab p : accumulate KO CO PO ss tab (gp p) = mix_accumulate KO cmul PO ss tab p.
Proof.
  destruct p as [[k1 c1] [k2 c2]]. unfold accumulate, mix_accumulate, gp, gt. cbn [fst snd]. apply bind_cong. intros k. rewrite <- HM.
  destruct (tbl_try_emplace KO PO tab k (mm_mul cmul c1 c2)) as [tab' []]; [reflexivity|]. f_equal.
  unfold tbl_update. apply map_ext. intros [k' c']. cbn [fst snd]. destruct (k_eqb KO k' k); [rewrite HF|]; reflexivity.
Qed.
Lemma accumulate_all ss l : forall tab, rfold (accumulate KO CO PO ss) (map gp l) tab = rfold (mix_accumulate KO cmul PO ss) l tab.
Proof.
  induction l as [|p l IH]; intros tab; cbn [map rfold]; [reflexivity|]. rewrite accumulate_gp. apply bind_cong. intros tab'. apply IH.
Qed.
Lemma map_gp_pair t1 l : map gp (map (pair t1) l) = map (pair (gt f1 t1)) (map (gt f2) l).
Proof. rewrite !map_map. reflexivity. Qed.
Lemma simple_pairs_map t v2 vd1 vd2 : forall v1 i,
  simple_pairs t (map (gt f2) v2) vd1 vd2 i (map (gt f1) v1) = rmapr (map gp) (mix_simple_pairs t v2 vd1 vd2 i v1).
Proof.
  induction v1 as [|t1 v1 IH]; intros i; cbn [simple_pairs mix_simple_pairs map]; [reflexivity|]. rewrite map_length, rmapr_bind. apply bind_cong. intros j.
  destruct (match t with None => false | Some _ => (j =? 0)%nat end); [reflexivity|]. rewrite IH, bind_rmapr, rmapr_bind. apply bind_cong. intros rest.
  cbn [rmapr bind]. rewrite map_app, map_gp_pair, firstn_map. reflexivity.
Qed.
Lemma range_pairs_map t v1 v2 vd1 vd2 r2 : forall idxs,
  range_pairs t (map (gt f1) v1) (map (gt f2) v2) vd1 vd2 r2 idxs = rmapr (map gp) (mix_range_pairs t v1 v2 vd1 vd2 r2 idxs).
Proof.
  induction idxs as [|i idxs IH]; cbn [range_pairs mix_range_pairs]; [reflexivity|]. rewrite rd_map, bind_rmapr, rmapr_bind. apply bind_cong. intros t1.
  rewrite rmapr_bind. apply bind_cong. intros ie. destruct (match t with None => false | Some _ => (ie =? sg_begin r2)%nat end); [reflexivity|].
  rewrite IH, bind_rmapr, rmapr_bind. apply bind_cong. intros rest. cbn [rmapr bind]. rewrite map_app, map_gp_pair, slice_map'. reflexivity.
Qed.
Lemma task_pairs_map t v1 v2 vd1 vd2 vseg1 vseg2 nsegs i :
  task_pairs t (map (gt f1) v1) (map (gt f2) v2) vd1 vd2 vseg1 vseg2 nsegs i = rmapr (map gp) (mix_task_pairs t v1 v2 vd1 vd2 vseg1 vseg2 nsegs i).
Proof.
  unfold task_pairs, mix_task_pairs. rewrite rmapr_bind. apply bind_cong. intros ranges. rewrite rmapr_bind.
  rewrite (rmap_cong _ (fun r => rmapr (map gp) (mix_range_pairs t v1 v2 vd1 vd2 (snd r) (seq (sg_begin (fst r)) (sg_end (fst r) - sg_begin (fst r)))))) by (intros r; apply range_pairs_map).
  rewrite rmap_rmapr, bind_rmapr. apply bind_cong. intros pairs. cbn [rmapr bind]. rewrite concat_map. reflexivity.
Qed.
Lemma fst_gt {C' C'' : Type} (f : C' -> C'') (v : list (K * C')) : map fst (map (gt f) v) = map fst v.
Proof. rewrite map_map. reflexivity. Qed.

(** The choices made for the operands x and y. *)
Definition same_env (x : series K C1 Tag) (y : series K C2 Tag) : mul_env K C Tag :=
  {| me_check := mx_check E; me_sort := sort_by (mx_sort E); me_mt := fun _ _ => mx_mt E x y; me_log2 := fun _ _ => mx_log2 E (terms x) (terms y) |}.

Lemma check_map x y ss v1 v2 : check_overflow (same_env x y) ss (map (gt f1) v1) (map (gt f2) v2) = mix_check_overflow E ss v1 v2.
Proof. unfold check_overflow, mix_check_overflow. cbn [me_check same_env]. rewrite !fst_gt. reflexivity. Qed.

Lemma mix_simple_map t retval x y : poly_mul_simple KO CO PO (same_env x y) t retval (mapc f1 x) (mapc f2 y) = mix_simple KO CO cmul PO E t retval x y.
Proof.
  unfold poly_mul_simple, mix_simple. rewrite !terms_mapc, check_map. apply bind_cong. intros _.
  match goal with |- bind ?a _ = bind ?b _ => assert (H : a = rmapr (map gp) b) end.
  { destruct t as [t'|]; [|apply (simple_pairs_map None _ [] [])].
    rewrite (degree_sorted_map f1 (same_env x y) (one_env E C1) (mx_sort E)) by reflexivity. rewrite bind_rmapr, rmapr_bind. apply bind_cong. intros [v1 vd1]. cbn [fst snd].
    rewrite (degree_sorted_map f2 (same_env x y) (one_env E C2) (mx_sort E)) by reflexivity. rewrite bind_rmapr, rmapr_bind. apply bind_cong. intros [v2 vd2]. cbn [fst snd].
    apply simple_pairs_map. }
  rewrite H, bind_rmapr. apply bind_cong. intros pairs. apply bind_cong. intros tab. rewrite accumulate_all. reflexivity.
Qed.
Lemma no_mults_map t ss x y v1 v2 : no_mults (same_env x y) t ss (map (gt f1) v1) (map (gt f2) v2) = mix_no_mults E t ss v1 v2.
Proof. unfold no_mults, mix_no_mults. rewrite !degree_vector_map. reflexivity. Qed.

Lemma mix_mt_map t retval x y : poly_mul_mt KO CO PO (same_env x y) t retval (mapc f1 x) (mapc f2 y) = mix_mt KO CO cmul PO E t retval x y.
Proof.
  unfold poly_mul_mt, mix_mt. rewrite !terms_mapc, check_map. apply bind_cong. intros _.
  match goal with |- bind ?a _ = bind ?b _ => assert (H : a = b) by (destruct t; [apply no_mults_map|reflexivity]); rewrite H; clear H end.
  apply bind_cong. intros []; [reflexivity|]. cbn [me_log2 same_env me_sort]. apply bind_cong. intros rv. cbv zeta.
  rewrite !sort_by_map. rewrite (compute_vseg_map KO f1), (compute_vseg_map KO f2). apply bind_cong. intros vseg1. apply bind_cong. intros vseg2.
  set (w1 := sort_by (mx_sort E) (K * C1) _ (terms x)). set (w2 := sort_by (mx_sort E) (K * C2) _ (terms y)).
  assert (H1 : match t with None => Ok (map (gt f1) w1, []) | Some t => seg_sorted (same_env x y) t (s_ss retval) (map (gt f1) w1) vseg1 end =
               rmapr (fun p => (map (gt f1) (fst p), snd p)) (match t with None => Ok (w1, []) | Some t => seg_sorted (one_env E C1) t (s_ss retval) w1 vseg1 end))
    by (destruct t; [apply (seg_sorted_map f1 (same_env x y) (one_env E C1) (mx_sort E)); reflexivity|reflexivity]).
  assert (H2 : match t with None => Ok (map (gt f2) w2, []) | Some t => seg_sorted (same_env x y) t (s_ss retval) (map (gt f2) w2) vseg2 end =
               rmapr (fun p => (map (gt f2) (fst p), snd p)) (match t with None => Ok (w2, []) | Some t => seg_sorted (one_env E C2) t (s_ss retval) w2 vseg2 end))
    by (destruct t; [apply (seg_sorted_map f2 (same_env x y) (one_env E C2) (mx_sort E)); reflexivity|reflexivity]).
  rewrite H1, bind_rmapr. apply bind_cong. intros [v1 vd1]. cbn [fst snd]. rewrite H2, bind_rmapr. apply bind_cong. intros [v2 vd2]. cbn [fst snd].
  f_equal. apply rmap_cong. intros i. rewrite task_pairs_map, bind_rmapr. apply bind_cong. intros pairs. apply bind_cong. intros tab.
  unfold segment_task, mix_segment_task. rewrite accumulate_all. reflexivity.
Qed.

Theorem mix_identical_map t x y : poly_mul_identical_ss KO CO PO TO (same_env x y) t (mapc f1 x) (mapc f2 y) = mix_identical_ss KO CO cmul PO TO E t x y.
Proof.
  unfold poly_mul_identical_ss, mix_identical_ss. cbn [mapc s_ss me_mt same_env]. apply bind_cong. intros rv. fold (mapc f1 x). fold (mapc f2 y). rewrite !empty_mapc.
  rewrite mix_mt_map, mix_simple_map. reflexivity.
Qed.
End Two.
