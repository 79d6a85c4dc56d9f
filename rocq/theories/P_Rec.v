(** Property C73: polynomials with polynomial coefficients (rank 2).  Vocabulary: RecSpec.v ([coef2]: the coefficient of a monomial in the outer
    and the inner symbols; [prod2]: the convolution over all pairs of terms; [rwf U]: well-formed, the coefficients being well-formed
    polynomials in symbols of U), RecModel.v ([rec_cf]: polynomials as coefficients; a coefficient operation which throws leaves the exception as the coefficient). *)
From Coq Require Import ZArith List Bool String Arith Lia Permutation Sorted Ring Ring_theory.
From Verif Require Import Base KpackModel KpackSpec KpackProofs P_Kpack SymSpec SymModel SymProofs P_Sym PMonSpec PMonModel PMonProofs PMonProofs2 P_PMon KeyOps KeyInst SeriesModel SeriesModel2 SeriesSpec PolyModel PolyModel2 PolySpec PolyProofs PolyProofs2
  SeriesProofs SeriesProofs2 SeriesProofs3 SeriesProofs4 SeriesProofs5 SeriesProofs6 SeriesEval CfInst P_Series P_Series2 P_Poly P_Poly2 PolyProofs5 PolyProofs6 PolyProofs7 LfSpec LfProofs LfProofs2 LfProofs3 LfProofs4 P_Lf RecModel RecSpec RecProofs.
Import ListNotations.
Open Scope Z_scope.
Open Scope res_scope.
Local Notation len := List.length.

(** No coefficient operation has thrown; some coefficient operation has. *)
Definition no_exception {K Tag A : Type} (r : series K (res A) Tag) : Prop := forall k c, In (k, c) (terms r) -> exists s, c = Ok s.
Definition coefficient_throws {K Tag A : Type} (o : res (series K (res A) Tag)) : Prop := exists r k c, o = Ok r /\ In (k, c) (terms r) /\ key_overflow c.
Lemma settle_spec {K Tag A : Type} (r : series K (res A) Tag) : (forall k c, In (k, c) (terms r) -> (exists s, c = Ok s) \/ key_overflow c) ->
  (settle (Ok r) = Ok r /\ no_exception r) \/ (key_overflow (settle (Ok r)) /\ coefficient_throws (Ok r)).
Proof.
  intros H. cbn [settle bind]. destruct (rmap_spec (fun e : K * res A => snd e) (terms r)) as [(l & E & F)|(l1 & [k c] & l2 & E & _ & D)].
  - left. rewrite E. split; [reflexivity|]. intros k c I. destruct (H k c I) as [X|X]; [exact X|]. exfalso. clear H E. revert F I. generalize (terms r). intros t F. induction F as [|[k' c'] b t l F1 F IH]; [contradiction|].
    intros [[= -> ->]|I]; [|auto]. cbn in F1. destruct X as [-> | ->]; discriminate.
  - right. assert (I : In (k, c) (terms r)) by (rewrite E; apply in_elt). assert (KO : key_overflow c).
    { destruct (H k c I) as [(s & ->)|X]; [|exact X]. cbn [snd] in D. destruct D as [(e & D & _)|(D & _)]; discriminate. }
    split; [|exists r, k, c; auto]. cbn [snd] in D. unfold settle. cbn [bind]. destruct KO as [-> | ->]; destruct D as [(e & D & ->)|(D & _)]; try discriminate; injection D as <-; [left|right]; reflexivity.
Qed.

Section R.
Context {K Tag KI C TagI : Type} (KO : key_ops K) (KS : key_sem K) (TO : tag_ops Tag)
  (KOI : key_ops KI) (KSI : key_sem KI) (CO : cf_ops C) (POI : tbl_policy (KI * C)) (TOI : tag_ops TagI) (EI : mul_env KI C TagI) (PO : tbl_policy (K * res (series KI C TagI))).
Hypothesis KL : key_laws KO KS.
Hypothesis KLI : key_laws KOI KSI.
Hypothesis CL : cf_laws CO.
Hypothesis EOI : env_ok KOI KSI EI.
Notation inner := (series KI C TagI).
Notation outer := (series K (res inner) Tag).
Notation RC := (rec_cf KOI CO POI TOI EI).
Notation "0c" := (c_zero CO).
Notation "a +c b" := (c_add CO a b) (at level 50, left associativity).
Notation "a -c b" := (c_sub CO a b) (at level 50, left associativity).
Notation RWF := (rwf KO KS RC KOI KSI CO).
Notation coef2 := (coef2 KS KSI CO).
Notation prod2 := (prod2 KS KSI CO).
Notation g := (g KSI CO).
Notation okc := (okc KOI KSI CO).
Add Ring CringRR : (cl_ring _ CL).

Section U.
Variable U : symbol_set.
Hypothesis UB : Z.of_nat (len U + len U) <= imax size_t.

Definition val (vs : symbol_set) (ts : list Z) (o : option (res inner)) : C := match o with Some c => g vs ts c | None => 0c end.
Lemma zero_g c vs ts : c_is_zero RC c = true -> g vs ts c = 0c.
Proof. destruct c as [s| |]; cbn; try discriminate. intros H. apply empty_terms in H. unfold coef. rewrite H. apply (psum_nil CO). Qed.
Lemma val_nonzero c vs ts : val vs ts (nonzero RC c) = g vs ts c.
Proof. unfold nonzero. destruct (c_is_zero RC c) eqn:EZ; [|reflexivity]. cbn [val]. symmetry. apply zero_g. exact EZ. Qed.
Lemma neg_okc c : okc U c -> okc U (c_neg RC c) /\ forall vs ts, g vs ts (c_neg RC c) = 0c -c g vs ts c.
Proof.
  intros (s & -> & W & I). cbn [c_neg rec_cf bind]. destruct (negate_exact KOI KSI CO CL s W) as (W' & M1 & _ & _ & _ & H). split; [exists (series_negate CO s); split; [reflexivity|]; split; [exact W'|rewrite M1; exact I]|].
  intros vs ts. cbn [RecProofs.g]. rewrite H. ring.
Qed.

Lemma merged_val (sign : bool) a b : (forall c, a = Some c -> okc U c) -> (forall c, b = Some c -> okc U c) ->
  (forall c, merged RC sign a b = Some c -> okc U c \/ key_overflow c) /\
  ((forall c, merged RC sign a b = Some c -> exists s, c = Ok s) -> forall vs ts, val vs ts (merged RC sign a b) = if sign then val vs ts a +c val vs ts b else val vs ts a -c val vs ts b).
Proof.
  intros HA HB. destruct a as [a|], b as [b|].
  - specialize (HA a eq_refl). specialize (HB b eq_refl). cbn [merged]. pose proof (sum_ok KOI KSI CO POI TOI EI KLI CL U UB sign a b HA HB) as S. split.
    + intros c. unfold nonzero. destruct (c_is_zero RC _); [discriminate|]. intros [= <-]. tauto.
    + intros N vs ts. rewrite val_nonzero. destruct S as [[_ S]|S]; [rewrite S; destruct sign; reflexivity|]. exfalso.
      assert (Z0 : c_is_zero RC (if sign then c_add RC a b else c_sub RC a b) = false) by (destruct S as [S|S]; rewrite S; reflexivity).
      unfold nonzero in N. rewrite Z0 in N. destruct (N _ eq_refl) as (s & E). destruct S as [S|S]; rewrite S in E; discriminate.
  - split; [intros c [= <-]; auto|]. intros _ vs ts. cbn [merged val]. destruct sign; ring.
  - specialize (HB b eq_refl). pose proof (neg_okc b HB) as [ON HN]. cbn [merged]. split.
    + intros c. unfold nonzero. destruct (c_is_zero RC _); [discriminate|]. intros [= <-]. destruct sign; auto.
    + intros _ vs ts. rewrite val_nonzero. cbn [val]. destruct sign; [ring|]. apply HN.
  - split; [discriminate|]. intros _ vs ts. cbn [merged val]. destruct sign; ring.
Qed.

Lemma combined_val (sign xl : bool) a b : (forall c, a = Some c -> okc U c) -> (forall c, b = Some c -> okc U c) ->
  (forall c, combined RC sign xl a b = Some c -> okc U c \/ key_overflow c) /\
  ((forall c, combined RC sign xl a b = Some c -> exists s, c = Ok s) -> forall vs ts, val vs ts (combined RC sign xl a b) = if sign then val vs ts a +c val vs ts b else val vs ts a -c val vs ts b).
Proof.
  intros HA HB. unfold combined. destruct xl; [apply merged_val; auto|]. destruct (merged_val sign b a HB HA) as [M1 M2]. destruct sign.
  - split; [exact M1|]. intros N vs ts. rewrite M2 by exact N. ring.
  - split.
    + intros c. destruct (merged RC false b a) as [d|] eqn:EM; [|discriminate]. cbn [option_map]. intros [= <-]. destruct (M1 d eq_refl) as [O|B]; [left; apply neg_okc; exact O|right].
      destruct B as [-> | ->]; [left|right]; reflexivity.
    + intros N vs ts. destruct (merged RC false b a) as [d|] eqn:EM.
      * cbn [option_map val] in *. assert (OD : okc U d).
        { destruct (M1 d eq_refl) as [O|B]; [exact O|]. destruct (N _ eq_refl) as (s & E). destruct B as [-> | ->]; discriminate. }
        destruct (neg_okc d OD) as [_ H]. rewrite H. rewrite M2; [ring|]. intros c [= <-]. destruct OD as (s & -> & _). eauto.
      * cbn [option_map val] in *. assert (X : 0c = val vs ts b -c val vs ts a) by (apply M2; discriminate). assert (Y : val vs ts a -c val vs ts b = 0c -c (val vs ts b -c val vs ts a)) by ring. rewrite Y, <- X. ring.
Qed.

Lemma entry_okc us (x : outer) ws c : RWF U x -> incl (s_ss x) us -> entry KS us x ws = Some c -> okc U c.
Proof. intros [L H] I EE. apply (entry_in KO KS RC KL us x ws c (lw_wf _ _ _ _ L) I) in EE as (k & J & _). apply (H k c J). Qed.
Lemma in_entry (r : outer) k c : wf KO KS RC r -> In (k, c) (terms r) -> exists ws, entry KS (s_ss r) r ws = Some c.
Proof. intros W I. exists (spread (s_ss r) (s_ss r) (ks_exps KS (len (s_ss r)) k)). apply (entry_in KO KS RC KL (s_ss r) r _ c W (incl_refl _)). eauto. Qed.

(** From a statement about every stored coefficient to one about the polynomial. *)
Lemma lift_exact (r : outer) (F : symbol_set -> symbol_set -> list Z -> list Z -> C) (Q : symbol_set -> Prop) : lwf KO KS RC r -> Q (s_ss r) ->
  (forall us ws, incl (s_ss r) us -> Q us -> (forall c, entry KS us r ws = Some c -> okc U c \/ key_overflow c) /\
     ((forall c, entry KS us r ws = Some c -> exists s, c = Ok s) -> forall vs ts, sorted_set vs -> incl U vs -> val vs ts (entry KS us r ws) = F us vs ws ts)) ->
  (forall k c, In (k, c) (terms r) -> okc U c \/ key_overflow c) /\
  (no_exception r -> RWF U r /\ forall us vs ws ts, incl (s_ss r) us -> Q us -> sorted_set vs -> incl U vs -> coef2 us vs r ws ts = F us vs ws ts).
Proof.
  intros LW QR H. assert (A : forall k c, In (k, c) (terms r) -> okc U c \/ key_overflow c).
  { intros k c I. destruct (in_entry r k c (lw_wf _ _ _ _ LW) I) as (ws & EE). apply (H (s_ss r) ws (incl_refl _) QR). exact EE. }
  split; [exact A|]. intros N. split.
  - constructor; [exact LW|]. intros k c I. destruct (A k c I) as [O|B]; [exact O|]. destruct (N k c I) as (s & ->). destruct B; discriminate.
  - intros us vs ws ts IU QU SV IV. rewrite (coef2_entry KO KS KOI KSI CO POI TOI EI KL CL us vs r ws ts (lw_wf _ _ _ _ LW) IU). apply (H us ws IU QU); auto.
    intros c EE. apply (entry_in KO KS RC KL us r ws c (lw_wf _ _ _ _ LW) IU) in EE as (k & I & _). apply (N k c I).
Qed.

(** Addition and subtraction, coefficient by coefficient. *)
Lemma rec_add_sub_coefficients : forall (sign : bool) (x y : outer), RWF U x -> RWF U y -> Z.of_nat (len (s_ss x) + len (s_ss y)) <= imax size_t ->
  let out := if sign then series_add KO RC PO TO x y else series_sub KO RC PO TO x y in
  (exists r, out = Ok r /\ union_of (s_ss x) (s_ss y) (s_ss r) /\
     (forall k c, In (k, c) (terms r) -> (exists s, c = Ok s) \/ key_overflow c) /\
     (no_exception r -> RWF U r /\ forall us vs ws ts, incl (s_ss r) us -> sorted_set vs -> incl U vs ->
        coef2 us vs r ws ts = if sign then coef2 us vs x ws ts +c coef2 us vs y ws ts else coef2 us vs x ws ts -c coef2 us vs y ws ts)) \/
  (key_overflow out /\
   ((exists u, union_of (s_ss x) (s_ss y) u /\ (unrep KS u x \/ unrep KS u y)) \/
    full (s_log2 x) (series_size x + series_size y) \/ full (s_log2 y) (series_size x + series_size y))).
Proof.
  intros sign x y WX WY B out. destruct (any_cf_add_sub KO KS RC PO TO KL (rec_light KOI CO POI TOI EI) sign x y (rw_lwf _ _ _ _ _ _ _ _ WX) (rw_lwf _ _ _ _ _ _ _ _ WY) B) as [(r & E & W & UN & H)|H]; [left|right; exact H].
  exists r. split; [exact E|]. split; [exact UN|].
  destruct (lift_exact r (fun us vs ws ts => if sign then coef2 us vs x ws ts +c coef2 us vs y ws ts else coef2 us vs x ws ts -c coef2 us vs y ws ts) (fun _ => True) W I) as [A1 A2].
  - intros us ws IU _. rewrite H by exact IU. assert (IX : incl (s_ss x) us) by (intros z Iz; apply IU, UN; auto). assert (IY : incl (s_ss y) us) by (intros z Iz; apply IU, UN; auto).
    destruct (combined_val sign (series_size y <=? series_size x)%nat (entry KS us x ws) (entry KS us y ws)) as [C1 C2]; [intros c EE; eapply (entry_okc us x); eauto|intros c EE; eapply (entry_okc us y); eauto|].
    split; [exact C1|]. intros N vs ts SV IV. rewrite C2 by exact N. rewrite !(coef2_entry KO KS KOI KSI CO POI TOI EI KL CL us vs) by (auto; apply rw_lwf with (1 := WX) || apply rw_lwf with (1 := WY)). reflexivity.
  - split; [|intros N; destruct (A2 N) as [A3 A4]; split; [exact A3|]; intros; apply A4; auto]. intros k c J. destruct (A1 k c J) as [(s & -> & _)|Z]; [left; eauto|right; exact Z].
Qed.

(** The operators += and -=. *)
Lemma rec_in_place_coefficients : forall (sign : bool) (x : outer) (aliased : bool) (y : outer), RWF U x -> RWF U y -> (aliased = true -> y = x) -> Z.of_nat (len (s_ss x) + len (s_ss y)) <= imax size_t ->
  let out := series_in_place_addsub KO RC PO RC PO TO sign (fun c => c) x aliased y in
  (exists r, out = Ok r /\ union_of (s_ss x) (s_ss y) (s_ss r) /\
     (forall k c, In (k, c) (terms r) -> (exists s, c = Ok s) \/ key_overflow c) /\
     (no_exception r -> RWF U r /\ forall us vs ws ts, incl (s_ss r) us -> sorted_set vs -> incl U vs ->
        coef2 us vs r ws ts = if sign then coef2 us vs x ws ts +c coef2 us vs y ws ts else coef2 us vs x ws ts -c coef2 us vs y ws ts)) \/
  (key_overflow out /\
   ((exists u, union_of (s_ss x) (s_ss y) u /\ (unrep KS u x \/ unrep KS u y)) \/
    full (s_log2 x) (series_size x + series_size y) \/ full (s_log2 y) (series_size x + series_size y))).
Proof.
  intros sign x al y WX WY AL B out. destruct (any_cf_in_place KO KS RC PO TO KL (rec_light KOI CO POI TOI EI) sign x al y (rw_lwf _ _ _ _ _ _ _ _ WX) (rw_lwf _ _ _ _ _ _ _ _ WY) AL B) as [(r & E & W & UN & H)|H]; [left|right; exact H].
  exists r. split; [exact E|]. split; [exact UN|].
  destruct (lift_exact r (fun us vs ws ts => if sign then coef2 us vs x ws ts +c coef2 us vs y ws ts else coef2 us vs x ws ts -c coef2 us vs y ws ts) (fun _ => True) W I) as [A1 A2].
  - intros us ws IU _. rewrite H by exact IU. assert (IX : incl (s_ss x) us) by (intros z Iz; apply IU, UN; auto). assert (IY : incl (s_ss y) us) by (intros z Iz; apply IU, UN; auto).
    destruct (merged_val sign (entry KS us x ws) (entry KS us y ws)) as [C1 C2]; [intros c EE; eapply (entry_okc us x); eauto|intros c EE; eapply (entry_okc us y); eauto|].
    split; [exact C1|]. intros N vs ts SV IV. rewrite C2 by exact N. rewrite !(coef2_entry KO KS KOI KSI CO POI TOI EI KL CL us vs) by (auto; apply rw_lwf with (1 := WX) || apply rw_lwf with (1 := WY)). reflexivity.
  - split; [|intros N; destruct (A2 N) as [A3 A4]; split; [exact A3|]; intros; apply A4; auto]. intros k c J. destruct (A1 k c J) as [(s & -> & _)|Z]; [left; eauto|right; exact Z].
Qed.

Lemma factors_okc us (x y : outer) ws p : RWF U x -> RWF U y -> In p (factors KS us x y ws) -> okc U (fst p) /\ okc U (snd p).
Proof.
  intros WX WY I. unfold factors in I. apply in_map_iff in I as ([[k1 c1] [k2 c2]] & <- & I). apply filter_In in I as [I _]. apply in_prod_iff in I as [I1 I2]. cbn [fst snd].
  split; [apply (rw_inner _ _ _ _ _ _ _ _ WX k1 c1 I1)|apply (rw_inner _ _ _ _ _ _ _ _ WY k2 c2 I2)].
Qed.

Lemma prod2_comm us vs (x y : outer) ws ts : prod2 us vs x y ws ts = prod2 us vs y x ws ts.
Proof.
  unfold RecSpec.prod2. assert (P : forall A B (l : list A) (m : list B), Permutation (list_prod l m) (map (fun p => (snd p, fst p)) (list_prod m l))).
  { induction l as [|a l IH]; intros m; [cbn; induction m; auto|]. cbn [list_prod]. 
    assert (Q : Permutation (map (fun p : B * A => (snd p, fst p)) (list_prod m (a :: l))) (map (fun b => (a, b)) m ++ map (fun p => (snd p, fst p)) (list_prod m l))).
    { clear IH. induction m as [|b m IHm]; [constructor|]. cbn [list_prod map app fst snd]. constructor. rewrite !map_app, !map_map. cbn [fst snd]. rewrite app_assoc. eapply Permutation_trans; [apply Permutation_app_head; exact IHm|].
      rewrite !app_assoc. apply Permutation_app_tail. apply Permutation_app_comm. }
    apply Permutation_sym. eapply Permutation_trans; [exact Q|]. apply Permutation_app_head. apply Permutation_sym, IH. }
  rewrite (csum_perm CO CL _ _ (Permutation_map _ (filter_perm _ _ _ (P _ _ (flat KS KSI us vs x) (flat KS KSI us vs y))))). rewrite filter_map_gen, map_map. cbn [fst snd]. f_equal.
  rewrite (filter_ext _ (fun p : (list Z * list Z * C) * (list Z * list Z * C) => vec_eqb (vadd (fst (fst (fst p))) (fst (fst (snd p)))) ws && vec_eqb (vadd (snd (fst (fst p))) (snd (fst (snd p)))) ts)).
  - apply map_ext. intros p. apply (Rmul_comm (cl_ring _ CL)).
  - intros p. rewrite (vadd_comm (fst (fst (snd p)))), (vadd_comm (snd (fst (snd p)))). reflexivity.
Qed.

(** Multiplication. *)
Lemma rec_mul_coefficients : forall E (x y : outer), env_ok KO KS E -> RWF U x -> RWF U y -> Z.of_nat (len (s_ss x) + len (s_ss y)) <= imax size_t ->
  exists u, union_of (s_ss x) (s_ss y) u /\
  ((exists r, poly_mul KO RC PO TO E x y = Ok r /\ s_ss r = u /\ ~ unrepresentable KS u x y /\
     (forall k c, In (k, c) (terms r) -> (exists s, c = Ok s) \/ key_overflow c) /\
     (no_exception r -> RWF U r /\ forall us vs ws ts, sorted_set us -> incl u us -> sorted_set vs -> incl U vs -> coef2 us vs r ws ts = prod2 us vs x y ws ts)) \/
   (key_overflow (poly_mul KO RC PO TO E x y) /\ (unrepresentable KS u x y \/ capacity x y))).
Proof.
  intros E x y EO WX WY B. destruct (any_cf_mul KO KS RC PO TO KL (rec_light KOI CO POI TOI EI) E x y EO (rw_lwf _ _ _ _ _ _ _ _ WX) (rw_lwf _ _ _ _ _ _ _ _ WY) B) as (u & UN & H). exists u. split; [exact UN|].
  destruct H as [(r & ER & W & SR & _ & NU & H)|H]; [left|right; exact H]. exists r. split; [exact ER|]. split; [exact SR|]. split; [exact NU|].
  destruct (lift_exact r (fun us vs ws ts => prod2 us vs x y ws ts) sorted_set W) as [A1 A2]; [rewrite SR; apply UN| |].
  - intros us ws IU SU. rewrite SR in IU. destruct (H us ws SU IU) as (l & P & EE). rewrite EE.
    assert (OL : forall p, In p l -> okc U (fst p) /\ okc U (snd p)). { intros p I. apply (Permutation_in _ P) in I. unfold ordered_factors in I. destruct (_ <=? _)%nat; [apply (factors_okc us x y ws p WX WY I)|apply (factors_okc us y x ws p WY WX I)]. }
    assert (SP : forall vs ts, csum CO (map (gp KSI CO vs ts) l) = prod2 us vs x y ws ts).
    { intros vs ts. rewrite (csum_perm CO CL _ _ (Permutation_map _ P)). unfold ordered_factors. destruct (_ <=? _)%nat; [symmetry; apply (prod2_sum KS KSI CO CL)|]. rewrite prod2_comm. symmetry. apply (prod2_sum KS KSI CO CL). }
    pose proof (accumulated_ok KOI KSI CO POI TOI EI KLI CL EOI U UB l OL) as AC. unfold accumulated_nonzero. destruct (accumulated RC l) as [c|].
    + split.
      * intros d. unfold nonzero. destruct (c_is_zero RC c); [discriminate|]. intros [= <-]. tauto.
      * intros N vs ts SV IV. rewrite val_nonzero. destruct AC as [[_ AC]|AC]; [rewrite AC by auto; apply SP|]. exfalso.
        assert (Z0 : c_is_zero RC c = false) by (destruct AC as [-> | ->]; reflexivity). unfold nonzero in N. rewrite Z0 in N. destruct (N c eq_refl) as (s & ->). destruct AC; discriminate.
    + split; [discriminate|]. intros _ vs ts _ _. cbn [val]. rewrite <- SP, AC. reflexivity.
  - split; [|intros N; destruct (A2 N) as [A3 A4]; split; [exact A3|]; intros; apply A4; auto; rewrite SR; assumption]. intros k c J. destruct (A1 k c J) as [(s & -> & _)|Z]; [left; eauto|right; exact Z].
Qed.

(** C73. Addition and subtraction: the result is exact in all the symbols together, or an exception is thrown, because of the outer
    exponents or sizes or by an operation on coefficients. *)
Theorem rec_add_sub : forall (sign : bool) (x y : outer), RWF U x -> RWF U y -> Z.of_nat (len (s_ss x) + len (s_ss y)) <= imax size_t ->
  let out := if sign then series_add KO RC PO TO x y else series_sub KO RC PO TO x y in
  (exists r, settle out = Ok r /\ union_of (s_ss x) (s_ss y) (s_ss r) /\ RWF U r /\
     forall us vs ws ts, incl (s_ss r) us -> sorted_set vs -> incl U vs ->
        coef2 us vs r ws ts = if sign then coef2 us vs x ws ts +c coef2 us vs y ws ts else coef2 us vs x ws ts -c coef2 us vs y ws ts) \/
  (key_overflow (settle out) /\ (coefficient_throws out \/
    (exists u, union_of (s_ss x) (s_ss y) u /\ (unrep KS u x \/ unrep KS u y)) \/
    full (s_log2 x) (series_size x + series_size y) \/ full (s_log2 y) (series_size x + series_size y))).
Proof.
  intros sign x y WX WY B out. destruct (rec_add_sub_coefficients sign x y WX WY B) as [(r & E & UN & A & H)|[KE H]]; fold out in E || fold out in KE.
  - rewrite E. destruct (settle_spec r A) as [[S N]|[S N]]; [left|right; auto]. exists r. destruct (H N). auto.
  - right. split; [destruct KE as [KE|KE]; rewrite KE; [left|right]; reflexivity|]. auto.
Qed.

(** C73. The operators += and -=, also with the operand itself on the right-hand side. *)
Theorem rec_in_place : forall (sign : bool) (x : outer) (aliased : bool) (y : outer), RWF U x -> RWF U y -> (aliased = true -> y = x) -> Z.of_nat (len (s_ss x) + len (s_ss y)) <= imax size_t ->
  let out := series_in_place_addsub KO RC PO RC PO TO sign (fun c => c) x aliased y in
  (exists r, settle out = Ok r /\ union_of (s_ss x) (s_ss y) (s_ss r) /\ RWF U r /\
     forall us vs ws ts, incl (s_ss r) us -> sorted_set vs -> incl U vs ->
        coef2 us vs r ws ts = if sign then coef2 us vs x ws ts +c coef2 us vs y ws ts else coef2 us vs x ws ts -c coef2 us vs y ws ts) \/
  (key_overflow (settle out) /\ (coefficient_throws out \/
    (exists u, union_of (s_ss x) (s_ss y) u /\ (unrep KS u x \/ unrep KS u y)) \/
    full (s_log2 x) (series_size x + series_size y) \/ full (s_log2 y) (series_size x + series_size y))).
Proof.
  intros sign x al y WX WY AL B out. destruct (rec_in_place_coefficients sign x al y WX WY AL B) as [(r & E & UN & A & H)|[KE H]]; fold out in E || fold out in KE.
  - rewrite E. destruct (settle_spec r A) as [[S N]|[S N]]; [left|right; auto]. exists r. destruct (H N). auto.
  - right. split; [destruct KE as [KE|KE]; rewrite KE; [left|right]; reflexivity|]. auto.
Qed.

(** C73. Multiplication: the convolution over all pairs of terms, in all the symbols together. *)
Theorem rec_mul : forall E (x y : outer), env_ok KO KS E -> RWF U x -> RWF U y -> Z.of_nat (len (s_ss x) + len (s_ss y)) <= imax size_t ->
  exists u, union_of (s_ss x) (s_ss y) u /\
  let out := poly_mul KO RC PO TO E x y in
  ((exists r, settle out = Ok r /\ s_ss r = u /\ ~ unrepresentable KS u x y /\ RWF U r /\
     forall us vs ws ts, sorted_set us -> incl u us -> sorted_set vs -> incl U vs -> coef2 us vs r ws ts = prod2 us vs x y ws ts) \/
   (key_overflow (settle out) /\ (coefficient_throws out \/ unrepresentable KS u x y \/ capacity x y))).
Proof.
  intros E x y EO WX WY B. destruct (rec_mul_coefficients E x y EO WX WY B) as (u & UN & [(r & ER & SR & NU & A & H)|[KE H]]); exists u; (split; [exact UN|]); intros out; fold out in ER || fold out in KE.
  - rewrite ER. destruct (settle_spec r A) as [[S N]|[S N]]; [left|right; auto]. exists r. destruct (H N). auto.
  - right. split; [destruct KE as [KE|KE]; rewrite KE; [left|right]; reflexivity|]. auto.
Qed.
End U.
End R.

(** * The hypotheses are met: (x + y^2) a + (x - 3) b^2 and 2 x a - x *)
Definition rI : mul_env Z Z Z := ex_env exS (pm_okb kd_int64) false 0.
Definition rC := rec_cf exK Z_cf exP Z_tag rI.
Definition rP : tbl_policy (Z * res (series Z Z Z)) := po_rev _.
Definition rE (mt : bool) (lg : nat) : mul_env Z (res (series Z Z Z)) Z := ex_env exS (pm_okb kd_int64) mt lg.
Lemma rE_ok mt lg : env_ok exK exS (rE mt lg).
Proof. apply pm_env_ok. right. right. left. reflexivity. Qed.
Lemma rI_ok : env_ok exK exS rI.
Proof. apply pm_env_ok. right. right. left. reflexivity. Qed.
Definition exR (ss : symbol_set) (l2 : nat) (l : list (list Z * (symbol_set * list (list Z * Z)))) : res (series Z (res (series Z Z Z)) Z) :=
  s <- set_n_segments (Series [[]] 0 0 ss) l2 ;; rfold (fun s e => add_term exK rC rP true s (fst e) (snd e)) (map (fun e => (exk (fst e), exs 0 (fst (snd e)) 0 (snd (snd e)))) l) s.
Definition dR : series Z (res (series Z Z Z)) Z := series_default Z_tag.
Definition rx := get dR (exR ["a"; "b"]%string 2 [([1; 0], (["x"; "y"]%string, [([1; 0], 1); ([0; 2], 1)])); ([0; 2], (["x"]%string, [([1], 1); ([0], -3)]))]).
Definition ry := get dR (exR ["a"]%string 0 [([1], (["x"]%string, [([1], 2)])); ([0], (["x"]%string, [([1], -1)]))]).
Definition xy : symbol_set := ["x"; "y"]%string.

(** Every coefficient has a well-formed series in it: decided by rebuilding it. *)
Lemma inner_wf ss l s : sorted_set ss -> forallb (fun e => representsb kd_int64 (len ss) (exk (fst e)) (fst e)) l = true -> exs 0 ss 0 l = Ok s -> wf exK exS Z_cf s /\ s_ss s = ss.
Proof. intros S F E. destruct (exs_wf 0 ss 0 l s S ltac:(lia) F E) as (A & B & _). auto. Qed.
Lemma x_sorted : sorted_set ["x"]%string. Proof. repeat constructor. Qed.
Lemma xy_sorted : sorted_set xy. Proof. repeat constructor. Qed.
Lemma exR_lwf ss l2 l s : sorted_set ss -> (l2 <= 63)%nat -> forallb (fun e => representsb kd_int64 (len ss) (exk (fst e)) (fst e)) l = true -> exR ss l2 l = Ok s -> lwf exK exS rC s /\ s_ss s = ss.
Proof.
  intros S L F E. assert (X : lwf exK exS rC s /\ s_ss s = ss /\ s_log2 s = l2 /\ s_tag s = 0); [|destruct X as (A & B & _); auto].
  eapply (buildC_lwf exK exS rC rP 0 ss l2 _ s exK_laws (rec_light exK Z_cf exP Z_tag rI) S L); [|exact E].
  intros k c I. apply in_map_iff in I as (e & [= <- <-] & I). rewrite forallb_forall in F. apply F in I. apply representsb_ok in I. exists (fst e). exact I.
Qed.
Definition i1 := exs 0 ["x"; "y"]%string 0 [([1; 0], 1); ([0; 2], 1)].
Definition i2 := exs 0 ["x"]%string 0 [([1], 1); ([0], -3)].
Definition i3 := exs 0 ["x"]%string 0 [([1], 2)].
Definition i4 := exs 0 ["x"]%string 0 [([1], -1)].
Lemma inner_ok c : c = i1 \/ c = i2 \/ c = i3 \/ c = i4 -> exists s, c = Ok s /\ wf exK exS Z_cf s /\ incl (s_ss s) xy.
Proof.
  assert (G : forall ss l c, sorted_set ss -> forallb (fun e => representsb kd_int64 (len ss) (exk (fst e)) (fst e)) l = true -> is_ok c = true -> c = exs 0 ss 0 l -> incl ss xy -> exists s, c = Ok s /\ wf exK exS Z_cf s /\ incl (s_ss s) xy).
  { intros ss l c0 S F K E I. destruct c0 as [s| |]; try discriminate. exists s. destruct (inner_wf ss l s S F (eq_sym E)) as [A B]. rewrite B. auto. }
  intros [-> | [-> | [-> | ->]]]; (eapply G; [| | |reflexivity|]; [apply xy_sorted || apply x_sorted|vm_compute; reflexivity|vm_compute; reflexivity|intros z Hz; cbn in Hz |- *; tauto]).
Qed.
Example rx_rwf : rwf exK exS rC exK exS Z_cf xy rx.
Proof.
  constructor.
  - apply (exR_lwf ["a"; "b"]%string 2 [([1; 0], (["x"; "y"]%string, [([1; 0], 1); ([0; 2], 1)])); ([0; 2], (["x"]%string, [([1], 1); ([0], -3)]))]); [apply ab_sorted|lia|reflexivity|vm_compute; reflexivity].
  - assert (T : map snd (terms rx) = [i1; i2] \/ map snd (terms rx) = [i2; i1]) by (vm_compute; auto). intros k c I. apply (in_map snd) in I. cbn [snd] in I. apply inner_ok. destruct T as [T|T]; rewrite T in I; destruct I as [<-|[<-|[]]]; auto.
Qed.
Example ry_rwf : rwf exK exS rC exK exS Z_cf xy ry.
Proof.
  constructor.
  - apply (exR_lwf ["a"]%string 0 [([1], (["x"]%string, [([1], 2)])); ([0], (["x"]%string, [([1], -1)]))]); [repeat constructor|lia|reflexivity|vm_compute; reflexivity].
  - assert (T : map snd (terms ry) = [i3; i4] \/ map snd (terms ry) = [i4; i3]) by (vm_compute; auto). intros k c I. apply (in_map snd) in I. cbn [snd] in I. apply inner_ok. destruct T as [T|T]; rewrite T in I; destruct I as [<-|[<-|[]]]; auto.
Qed.
(** The product 2 (x^2 + x y^2) a^2 - (x^2 + x y^2) a + 2 (x^2 - 3 x) a b^2 - (x^2 - 3 x) b^2, by one thread and by tasks; the sum, in which the
    coefficients of a are added; and x - x. *)
Example ex_rec : exists p q s z, settle (poly_mul exK rC rP Z_tag (rE false 0) rx ry) = Ok p /\ settle (poly_mul exK rC rP Z_tag (rE true 2) rx ry) = Ok q /\ s_log2 q = 2%nat /\
  settle (series_add exK rC rP Z_tag rx ry) = Ok s /\ settle (series_in_place_addsub exK rC rP rC rP Z_tag false (fun c => c) rx true rx) = Ok z /\ series_size z = 0%nat /\
  s_ss p = ["a"; "b"]%string /\ coef2 exS exS Z_cf ["a"; "b"]%string xy p [1; 2] [1; 0] = -6 /\ coef2 exS exS Z_cf ["a"; "b"]%string xy q [2; 0] [1; 2] = 2 /\ coef2 exS exS Z_cf ["a"; "b"]%string xy q [0; 2] [1; 0] = 3 /\
  coef2 exS exS Z_cf ["a"; "b"]%string xy p [0; 2] [0; 0] = 0 /\ coef2 exS exS Z_cf ["a"; "b"]%string xy s [1; 0] [1; 0] = 3 /\ coef2 exS exS Z_cf ["a"; "b"]%string xy s [1; 0] [0; 2] = 1.
Proof. do 4 eexists. do 4 (split; [vm_compute; reflexivity|]). split; [vm_compute; reflexivity|]. do 7 (split; [vm_compute; reflexivity|]). vm_compute. reflexivity. Qed.
(** A coefficient operation which throws: the product of the coefficients does not fit the packed exponents. *)
Definition rbig := get dR (exR ["a"]%string 0 [([1], (["x"; "y"]%string, [([2000000000; 0], 1)]))]).
Example ex_rec_throws : is_ok (exR ["a"]%string 0 [([1], (["x"; "y"]%string, [([2000000000; 0], 1)]))]) = true /\ key_overflow (settle (poly_mul exK rC rP Z_tag (rE false 0) rbig rbig)) /\ coefficient_throws (poly_mul exK rC rP Z_tag (rE false 0) rbig rbig).
Proof.
  split; [vm_compute; reflexivity|]. split; [vm_compute; auto|]. eexists _, _, _. split; [vm_compute; reflexivity|]. split; [left; reflexivity|]. vm_compute. auto.
Qed.

Print Assumptions rec_add_sub.
Print Assumptions rec_in_place.
Print Assumptions rec_mul.
Print Assumptions ex_rec.
Print Assumptions ex_rec_throws.
