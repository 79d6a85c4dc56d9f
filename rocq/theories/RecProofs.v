(** Polynomials with polynomial coefficients: sums and products. *)
From Coq Require Import ZArith List Bool String Arith Lia Permutation Sorted Ring Ring_theory.
From Verif Require Import Base SymSpec SymModel SymProofs P_Sym PMonSpec KeyOps SeriesModel SeriesModel2 SeriesSpec PolyModel PolyModel2 PolySpec PolyProofs PolyProofs2
  SeriesProofs SeriesProofs2 SeriesProofs3 SeriesProofs4 SeriesProofs5 SeriesProofs6 SeriesEval P_Series P_Poly PolyProofs5 PolyProofs6 PolyProofs7 LfSpec LfProofs LfProofs2 LfProofs3 LfProofs4 P_Lf RecModel RecSpec.
Import ListNotations.
Open Scope Z_scope.
Open Scope res_scope.
Local Notation len := List.length.

Section R.
Context {K Tag KI C TagI : Type} (KO : key_ops K) (KS : key_sem K) (TO : tag_ops Tag)
  (KOI : key_ops KI) (KSI : key_sem KI) (CO : cf_ops C) (POI : tbl_policy (KI * C)) (TOI : tag_ops TagI) (EI : mul_env KI C TagI).
Hypothesis KL : key_laws KO KS.
Hypothesis KLI : key_laws KOI KSI.
Hypothesis CL : cf_laws CO.
Hypothesis EOI : env_ok KOI KSI EI.
Notation inner := (series KI C TagI).
Notation outer := (series K (res inner) Tag).
Notation RC := (rec_cf KOI CO POI TOI EI).
Notation "0c" := (c_zero CO).
Notation "a +c b" := (c_add CO a b) (at level 50, left associativity).
Notation "a -c b" := (c_sub CO a b) (at level 50, left associativity).
Notation coefI := (coef KSI CO).
Notation wfI := (wf KOI KSI CO).
Add Ring CringR : (cl_ring _ CL).

Lemma rec_light : light_laws RC.
Proof.
  constructor; [reflexivity|]. intros [s| |]; [|reflexivity|reflexivity]. cbn. unfold series_empty, series_negate. cbn [s_tables set_tables]. induction (s_tables s) as [|t l IH]; [reflexivity|]. cbn [map forallb]. rewrite IH.
  destruct t; reflexivity.
Qed.

Section U.
Variable U : symbol_set.
Hypothesis UB : Z.of_nat (len U + len U) <= imax size_t.

Definition okc (c : res inner) : Prop := exists s, c = Ok s /\ wfI s /\ incl (s_ss s) U.
Definition okc' (c : res inner) : Prop := okc c \/ key_overflow c.
Definition g (vs : symbol_set) (ts : list Z) (c : res inner) : C := match c with Ok s => coefI vs s ts | _ => 0c end.
Definition gp (vs : symbol_set) (ts : list Z) (p : res inner * res inner) : C := match p with (Ok a, Ok b) => prod_coef KSI CO vs a b ts | _ => 0c end.

Lemma bound (a b : inner) : wfI a -> wfI b -> incl (s_ss a) U -> incl (s_ss b) U -> Z.of_nat (len (s_ss a) + len (s_ss b)) <= imax size_t.
Proof.
  intros WA WB IA IB. pose proof (NoDup_incl_length (sorted_set_nodup _ (wf_ss _ _ _ _ WA)) IA). pose proof (NoDup_incl_length (sorted_set_nodup _ (wf_ss _ _ _ _ WB)) IB). lia.
Qed.

Lemma sum_ok (sign : bool) a b : okc a -> okc b ->
  (okc (if sign then c_add RC a b else c_sub RC a b) /\ forall vs ts, g vs ts (if sign then c_add RC a b else c_sub RC a b) = if sign then g vs ts a +c g vs ts b else g vs ts a -c g vs ts b) \/
  key_overflow (if sign then c_add RC a b else c_sub RC a b).
Proof.
  intros (x & -> & WX & IX) (y & -> & WY & IY).
  assert (Q : (if sign then c_add RC (Ok x) (Ok y) else c_sub RC (Ok x) (Ok y)) = series_in_place_addsub KOI CO POI CO POI TOI sign (fun c => c) x false y) by (destruct sign; reflexivity).
  rewrite !Q. destruct (in_place_exact KOI KSI CO POI TOI KLI CL sign x false y WX WY) as [(r & ER & WR & [_ UR] & _ & H & _)|[ER _]]; [discriminate|apply bound; auto| |right; exact ER].
  left. rewrite !ER. split; [exists r; split; [reflexivity|]; split; [exact WR|]; intros z Iz; apply UR in Iz as [Iz|Iz]; auto|]. intros vs ts. cbn [g]. rewrite H. reflexivity.
Qed.
Lemma prod_ok a b : okc a -> okc b -> (okc (c_mul RC a b) /\ forall vs ts, sorted_set vs -> incl U vs -> g vs ts (c_mul RC a b) = gp vs ts (a, b)) \/ key_overflow (c_mul RC a b).
Proof.
  intros (x & -> & WX & IX) (y & -> & WY & IY). cbn [c_mul rec_cf lift2 bind].
  destruct (mul_exact KOI KSI CO POI TOI KLI CL EI x y EOI WX WY (bound x y WX WY IX IY)) as (u & [SU IU] & [(r & ER & WR & SR & _ & _ & H)|[ER _]]); [|right; exact ER].
  assert (IR : incl (s_ss r) U) by (rewrite SR; intros z Iz; apply IU in Iz as [Iz|Iz]; auto).
  left. rewrite !ER. split; [exists r; auto|]. intros vs ts SV IV. cbn [g gp]. apply H; [exact SV|]. rewrite <- SR. intros z Iz. auto.
Qed.
Lemma bad_add (a b : res inner) : key_overflow a \/ (okc a /\ key_overflow b) -> key_overflow (lift2 (fun a b => series_in_place_addsub KOI CO POI CO POI TOI true (fun c => c) a false b) a b).
Proof. unfold lift2. intros [[-> | ->]|[(s & -> & _) [-> | ->]]]; cbn [bind]; unfold key_overflow; auto. Qed.
Lemma fma_ok c a b : okc' c -> okc a -> okc b ->
  (okc (c_fma RC c a b) /\ okc c /\ forall vs ts, sorted_set vs -> incl U vs -> g vs ts (c_fma RC c a b) = g vs ts c +c gp vs ts (a, b)) \/ key_overflow (c_fma RC c a b).
Proof.
  intros [OC|BC] OA OB.
  - destruct (prod_ok a b OA OB) as [[OP HP]|BP].
    + pose proof (sum_ok true c (c_mul RC a b) OC OP) as [[OS HS]|BS]; [|right; exact BS]. left. split; [exact OS|]. split; [exact OC|]. intros vs ts SV IV. rewrite <- (HP vs ts SV IV). apply HS.
    + right. apply (bad_add c). right. split; [exact OC|exact BP].
  - right. apply (bad_add c). left. exact BC.
Qed.

Lemma accumulated_ok l : (forall p, In p l -> okc (fst p) /\ okc (snd p)) ->
  match accumulated RC l with
  | None => l = []
  | Some c => (okc c /\ forall vs ts, sorted_set vs -> incl U vs -> g vs ts c = csum CO (map (gp vs ts) l)) \/ key_overflow c
  end.
Proof.
  destruct l as [|p l]; intros H; [reflexivity|]. cbn [accumulated].
  assert (G : forall l (c : res inner) (h : symbol_set -> list Z -> C), (forall p, In p l -> okc (fst p) /\ okc (snd p)) ->
    ((okc c /\ forall vs ts, sorted_set vs -> incl U vs -> g vs ts c = h vs ts) \/ key_overflow c) ->
    let d := fold_left (fun c q => c_fma RC c (fst q) (snd q)) l c in
    (okc d /\ forall vs ts, sorted_set vs -> incl U vs -> g vs ts d = h vs ts +c csum CO (map (gp vs ts) l)) \/ key_overflow d).
  { clear H l p. induction l as [|q l IH]; intros c h HL HC; cbn [fold_left].
    - cbn zeta. destruct HC as [[OC HC]|BC]; [|right; exact BC]. left. split; [exact OC|]. intros vs ts SV IV. rewrite HC by auto. cbn [map csum fold_right]. ring.
    - destruct (HL q (or_introl eq_refl)) as [Q1 Q2]. specialize (IH (c_fma RC c (fst q) (snd q)) (fun vs ts => h vs ts +c gp vs ts q) (fun p I => HL p (or_intror I))).
      assert (HF : (okc (c_fma RC c (fst q) (snd q)) /\ forall vs ts, sorted_set vs -> incl U vs -> g vs ts (c_fma RC c (fst q) (snd q)) = h vs ts +c gp vs ts q) \/ key_overflow (c_fma RC c (fst q) (snd q))).
      { assert (OC' : okc' c) by (destruct HC as [[? _]|?]; [left|right]; assumption). destruct (fma_ok c (fst q) (snd q) OC' Q1 Q2) as [(OF & OC & HF)|BF]; [|right; exact BF].
        left. split; [exact OF|]. intros vs ts SV IV. rewrite HF by auto. destruct HC as [[_ HC]|BC]; [rewrite HC by auto; destruct q; reflexivity|]. destruct OC as (s & -> & _). destruct BC; discriminate. }
      specialize (IH HF). cbn zeta in IH |- *. destruct IH as [[O HD]|B]; [|right; exact B]. left. split; [exact O|]. intros vs ts SV IV. rewrite HD by auto. cbn [map csum fold_right]. fold (csum CO (map (gp vs ts) l)). ring. }
  specialize (G l (c_mul RC (fst p) (snd p)) (fun vs ts => gp vs ts p) (fun q I => H q (or_intror I))). destruct (H p (or_introl eq_refl)) as [P1 P2].
  assert (HM : (okc (c_mul RC (fst p) (snd p)) /\ forall vs ts, sorted_set vs -> incl U vs -> g vs ts (c_mul RC (fst p) (snd p)) = gp vs ts p) \/ key_overflow (c_mul RC (fst p) (snd p))).
  { destruct (prod_ok (fst p) (snd p) P1 P2) as [[O HP]|B]; [|right; exact B]. left. split; [exact O|]. intros vs ts SV IV. rewrite HP by auto. destruct p; reflexivity. }
  specialize (G HM). cbn zeta in G. destruct G as [[O HD]|B]; [left|right; exact B]. split; [exact O|]. exact HD.
Qed.

(** Coefficients of the flattened polynomial. *)
Lemma csum_flat {A} (f : A -> list C) l : csum CO (flat_map f l) = csum CO (map (fun a => csum CO (f a)) l).
Proof. induction l as [|a l IH]; [reflexivity|]. cbn [flat_map map]. rewrite (csum_app CO CL), IH. reflexivity. Qed.
Lemma filter_flat_map {A B} (P : B -> bool) (f : A -> list B) l : filter P (flat_map f l) = flat_map (fun a => filter P (f a)) l.
Proof. induction l as [|a l IH]; [reflexivity|]. cbn [flat_map]. rewrite filter_app, IH. reflexivity. Qed.
Lemma map_flat_map {A B D} (h : B -> D) (f : A -> list B) l : map h (flat_map f l) = flat_map (fun a => map h (f a)) l.
Proof. induction l as [|a l IH]; [reflexivity|]. cbn [flat_map]. rewrite map_app, IH. reflexivity. Qed.
Lemma filter_false {A} (l : list A) : filter (fun _ => false) l = [].
Proof. induction l; auto. Qed.

Notation okey x us e := (spread (s_ss x) us (ks_exps KS (len (s_ss x)) (fst e))).
Lemma coef2_sum us vs (x : outer) ws ts : coef2 KS KSI CO us vs x ws ts = csum CO (map (fun e => g vs ts (snd e)) (filter (fun e => vec_eqb (okey x us e) ws) (terms x))).
Proof.
  unfold coef2, flat. rewrite filter_flat_map, map_flat_map, csum_flat. generalize (terms x). intros l. induction l as [|e l IH]; [reflexivity|].
  assert (H : csum CO (map snd (filter (fun p => vec_eqb (fst (fst p)) ws && vec_eqb (snd (fst p)) ts)
      match snd e with Ok c => map (fun f => (okey x us e, spread (s_ss c) vs (ks_exps KSI (len (s_ss c)) (fst f)), snd f)) (terms c) | _ => [] end)) = if vec_eqb (okey x us e) ws then g vs ts (snd e) else 0c).
  { destruct (snd e) as [c| |]; [|destruct (vec_eqb _ ws); reflexivity..]. cbn [g]. unfold coef, psum. generalize (terms c). intros m. destruct (vec_eqb (okey x us e) ws) eqn:EV.
    - f_equal. induction m as [|f m IHm]; [reflexivity|]. cbn [map filter fst snd]. rewrite EV. cbn [andb]. destruct (vec_eqb _ ts); cbn [map fst snd]; rewrite IHm; reflexivity.
    - replace (filter _ _) with (@nil ((list Z * list Z) * C)); [reflexivity|]. symmetry. induction m as [|f m IHm]; [reflexivity|]. cbn [map filter fst snd]. rewrite EV. cbn [andb]. exact IHm. }
  cbn [map]. match goal with |- csum CO (?a :: ?b) = _ => change (csum CO (a :: b)) with (a +c csum CO b) end. rewrite H, IH. cbn [filter].
  destruct (vec_eqb (okey x us e) ws); cbn [map]; [reflexivity|ring].
Qed.
Lemma filter_one {B} (key : K * B -> list Z) l k c ws : NoDup (map fst l) -> (forall e, In e l -> vec_eqb (key e) ws = true -> fst e = k) -> In (k, c) l -> vec_eqb (key (k, c)) ws = true ->
  filter (fun e => vec_eqb (key e) ws) l = [(k, c)].
Proof.
  induction l as [|e l IH]; intros N M J M'; [contradiction|]. cbn [map] in N. inversion N as [|? ? NI N']; subst. cbn [filter].
  destruct J as [->|J].
  - rewrite M'. f_equal. rewrite (filter_ext_in _ (fun _ => false)); [apply filter_false|]. intros e' I'. destruct (vec_eqb (key e') ws) eqn:EV; [|reflexivity]. exfalso. apply NI. cbn [fst]. rewrite <- (M e' (or_intror I') EV). apply in_map. exact I'.
  - destruct (vec_eqb (key e) ws) eqn:EV.
    + exfalso. apply NI. rewrite (M e (or_introl eq_refl) EV). change k with (fst (k, c)). apply in_map. exact J.
    + apply IH; auto. intros e' I'. apply M. right. exact I'.
Qed.
Lemma coef2_entry us vs (x : outer) ws ts : wf KO KS RC x -> incl (s_ss x) us -> coef2 KS KSI CO us vs x ws ts = match entry KS us x ws with Some c => g vs ts c | None => 0c end.
Proof.
  intros W I. rewrite coef2_sum. destruct (entry KS us x ws) as [c|] eqn:EE.
  - apply (entry_in KO KS RC KL us x ws c W I) in EE as (k & J & EW).
    assert (F : filter (fun e => vec_eqb (okey x us e) ws) (terms x) = [(k, c)]).
    { pose proof (wf_keys _ _ _ _ W) as N. assert (M : forall e, In e (terms x) -> vec_eqb (okey x us e) ws = true -> fst e = k).
      { intros [k' c'] I' EV. apply vec_eqb_iff in EV. cbn [fst] in *. destruct (entry_key KO KS RC KL us x k k' c c' W I (wf_valid _ _ _ _ W k c J) I') as [-> _]; [congruence|reflexivity]. }
      assert (M' : vec_eqb (okey x us (k, c)) ws = true) by (apply vec_eqb_iff; exact EW).
      exact (filter_one (fun e => okey x us e) (terms x) k c ws N M J M'). }
    rewrite F. cbn [map snd csum fold_right]. ring.
  - rewrite (filter_ext_in _ (fun _ => false)); [rewrite filter_false; reflexivity|]. intros [k c] J. cbn [fst]. destruct (vec_eqb _ ws) eqn:EV; [|reflexivity]. exfalso.
    apply vec_eqb_iff in EV. assert (X : entry KS us x ws = Some c) by (apply (entry_in KO KS RC KL us x ws c W I); exists k; auto). congruence.
Qed.

(** Sums over products of lists. *)
Definition S2 {A B} (F : A * B -> C) (P : A * B -> bool) l m : C := csum CO (map F (filter P (list_prod l m))).
Lemma S2_app_l {A B} (F : A * B -> C) P l1 l2 m : S2 F P (l1 ++ l2) m = S2 F P l1 m +c S2 F P l2 m.
Proof.
  unfold S2. assert (H : list_prod (l1 ++ l2) m = list_prod l1 m ++ list_prod l2 m). { induction l1 as [|a l1 IH]; [reflexivity|]. cbn [list_prod app]. rewrite IH, app_assoc. reflexivity. }
  rewrite H, filter_app, map_app. apply (csum_app CO CL).
Qed.
Lemma S2_app_r {A B} (F : A * B -> C) P l m1 m2 : S2 F P l (m1 ++ m2) = S2 F P l m1 +c S2 F P l m2.
Proof.
  induction l as [|a l IH]; [unfold S2; cbn [list_prod filter map csum fold_right]; ring|].
  assert (H : forall m, S2 F P (a :: l) m = S2 F P [a] m +c S2 F P l m) by (intros m; apply (S2_app_l F P [a] l m)). rewrite !H, IH.
  assert (H1 : S2 F P [a] (m1 ++ m2) = S2 F P [a] m1 +c S2 F P [a] m2). { unfold S2. cbn [list_prod]. rewrite !app_nil_r, map_app, filter_app, map_app. apply (csum_app CO CL). }
  rewrite H1. ring.
Qed.
Lemma S2_flat {A B A' B'} (F : A * B -> C) P (f : A' -> list A) (h : B' -> list B) l m :
  S2 F P (flat_map f l) (flat_map h m) = csum CO (map (fun p => S2 F P (f (fst p)) (h (snd p))) (list_prod l m)).
Proof.
  induction l as [|a l IH]; [reflexivity|]. cbn [flat_map list_prod]. rewrite S2_app_l, IH, map_app, (csum_app CO CL). f_equal. clear IH. induction m as [|b m IH]; [unfold S2; cbn; induction (f a); auto|].
  - cbn [flat_map map fst snd]. rewrite S2_app_r, IH. reflexivity.
Qed.
Lemma csum_if {A} (P : A -> bool) (F : A -> C) l : csum CO (map (fun a => if P a then F a else 0c) l) = csum CO (map F (filter P l)).
Proof.
  induction l as [|a l IH]; [reflexivity|]. cbn [map filter]. match goal with |- csum CO (?a :: ?b) = _ => change (csum CO (a :: b)) with (a +c csum CO b) end. rewrite IH.
  destruct (P a); cbn [map]; [reflexivity|ring].
Qed.
Lemma filter_map_gen {A B} (P : B -> bool) (f : A -> B) l : filter P (map f l) = map f (filter (fun a => P (f a)) l).
Proof. induction l as [|a l IH]; [reflexivity|]. cbn [map filter]. destruct (P (f a)); cbn [map]; rewrite IH; reflexivity. Qed.
Lemma prod2_sum us vs (x y : outer) ws ts : prod2 KS KSI CO us vs x y ws ts = csum CO (map (gp vs ts) (factors KS us x y ws)).
Proof.
  unfold prod2, flat. fold (S2 (A := (list Z * list Z) * C) (B := (list Z * list Z) * C) (fun p => c_mul CO (snd (fst p)) (snd (snd p)))
    (fun p => vec_eqb (vadd (fst (fst (fst p))) (fst (fst (snd p)))) ws && vec_eqb (vadd (snd (fst (fst p))) (snd (fst (snd p)))) ts)
    (flat_map (fun e => match snd e with Ok c => map (fun f => ((okey x us e, spread (s_ss c) vs (ks_exps KSI (len (s_ss c)) (fst f))), snd f)) (terms c) | _ => [] end) (terms x))
    (flat_map (fun e => match snd e with Ok c => map (fun f => ((okey y us e, spread (s_ss c) vs (ks_exps KSI (len (s_ss c)) (fst f))), snd f)) (terms c) | _ => [] end) (terms y))).
  rewrite S2_flat. unfold factors. rewrite map_map. rewrite <- (csum_if (fun p : (K * res inner) * (K * res inner) => vec_eqb (vadd (okey x us (fst p)) (okey y us (snd p))) ws) (fun p => gp vs ts (snd (fst p), snd (snd p)))).
  f_equal. apply map_ext. intros [[k1 c1] [k2 c2]]. cbn [fst snd]. destruct c1 as [a| |]; [|destruct (vec_eqb _ ws); reflexivity..].
  assert (NIL : forall (A B : Type) (F : A * B -> C) P l, S2 F P l [] = 0c). { intros A B F P l. unfold S2. replace (list_prod l (@nil B)) with (@nil (A * B)); [reflexivity|]. induction l; auto. }
  destruct c2 as [b| |]; [|rewrite NIL; destruct (vec_eqb _ ws); reflexivity..]. cbn [gp]. unfold S2. rewrite list_prod_map, filter_map_gen, map_map. unfold prod_coef. cbn [fst snd].
  destruct (vec_eqb _ ws); cbn [andb]; [reflexivity|]. rewrite filter_false. reflexivity.
Qed.
End U.
End R.
