(** Property C78: which types sums, products, quotients, comparisons and conversions of series have.  Vocabulary: TypeSpec.v. *)
From Coq Require Import ZArith List Bool Arith Lia.
From Verif Require Import TypeModel TypeSpec.
Import ListNotations.

Section L.
Context {A : Type}.
Lemma nested_sym (s l : list A) : nested s l <-> nested l s.
Proof. unfold nested. tauto. Qed.
Lemma inner_cons (s l : list A) e : length s <= length l -> inner_part s (e :: l) <-> inner_part s l.
Proof.
  intros H. split; intros [pre E].
  - destruct pre as [|e' pre]; cbn [app] in E; [apply (f_equal (@length A)) in E; cbn in E; lia|]. exists pre. congruence.
  - exists (e :: pre). cbn. congruence.
Qed.
Lemma inner_len (s l : list A) : inner_part s l -> length s <= length l.
Proof. intros [pre ->]. rewrite app_length. lia. Qed.
Lemma inner_same (s l : list A) : length s = length l -> inner_part s l <-> s = l.
Proof. intros H. split; [|intros ->; exists []; reflexivity]. intros [pre E]. destruct pre; [symmetry; exact E|]. apply (f_equal (@length A)) in E. cbn in E. rewrite app_length in E. lia. Qed.
Lemma nested_cons (s l : list A) e : length s <= length l -> nested s (e :: l) <-> nested s l.
Proof.
  intros H. unfold nested. rewrite (inner_cons s l e H). split; intros [X|X]; auto.
  - apply inner_len in X. cbn in X. lia.
  - left. assert (E : length s = length l) by (pose proof (inner_len _ _ X); lia). apply (inner_same s l E). symmetry. apply (inner_same l s); auto.
Qed.
Lemma nested_same (s l : list A) : length s = length l -> nested s l <-> s = l.
Proof. intros H. unfold nested. rewrite (inner_same s l H), (inner_same l s (eq_sym H)). split; [intros [X|X]; auto|auto]. Qed.
Lemma nested_le (s l : list A) : length s <= length l -> nested s l <-> inner_part s l.
Proof. intros H. split; [|left; auto]. intros [X|X]; auto. assert (E : length s = length l) by (pose proof (inner_len _ _ X); lia). apply inner_same; auto. symmetry. apply inner_same; auto. Qed.
Lemma longer_le (s l : list A) : nested s l -> length s <= length l -> longer s l = l.
Proof. intros N H. unfold longer. destruct (Nat.ltb_spec (length s) (length l)); auto. apply nested_same; auto. lia. Qed.
Lemma longer_ge (s l : list A) : length l <= length s -> longer s l = s.
Proof. intros H. unfold longer. destruct (Nat.ltb_spec (length s) (length l)); auto. lia. Qed.
Lemma longer_sym (s l : list A) : nested s l -> longer s l = longer l s.
Proof. intros N. destruct (Nat.le_ge_cases (length s) (length l)) as [H|H]; [rewrite (longer_le s l), (longer_ge l s) by auto|rewrite (longer_le l s), (longer_ge s l); auto; apply nested_sym; auto]; auto. Qed.
Lemma inner_refl (l : list A) : inner_part l l.
Proof. exists []. reflexivity. Qed.
Lemma inner_trans (a b c : list A) : inner_part a b -> inner_part b c -> inner_part a c.
Proof. intros [p ->] [q ->]. exists (q ++ p). rewrite app_assoc. reflexivity. Qed.
(** Two end parts of one list are nested. *)
Lemma inner_nested (c : list A) : forall a b, inner_part a c -> inner_part b c -> nested a b.
Proof.
  assert (G : forall a b, length a <= length b -> inner_part a c -> inner_part b c -> inner_part a b).
  { induction c as [|e c IH]; intros a b L X Y.
    - destruct X as [p E]. symmetry in E. apply app_eq_nil in E as [_ ->]. exists b. rewrite app_nil_r. reflexivity.
    - destruct (Nat.le_gt_cases (length b) (length c)) as [H|H].
      + apply IH; auto; apply (inner_cons _ _ e); auto; lia.
      + pose proof (inner_len _ _ Y) as LY. cbn in LY. assert (b = e :: c) as -> by (apply inner_same; auto; cbn; lia). exact X. }
  intros a b X Y. destruct (Nat.le_ge_cases (length a) (length b)); [left; auto|right; auto].
Qed.
End L.
Lemma nested_map {A C} (f : A -> C) s l : nested s l -> nested (map f s) (map f l).
Proof. intros [[p ->]|[p ->]]; [left|right]; exists (map f p); apply map_app. Qed.

Section T.
Context {B K G : Type} (M : tbl B K G).
Notation ty := (ty B K G).
Lemma rank_levels (x : ty) : rank x = length (levels x).
Proof. induction x as [b|k c IH t]; cbn; auto. Qed.
Lemma keys_len (x : ty) : length (keys x) = rank x.
Proof. unfold keys. rewrite map_length, rank_levels. reflexivity. Qed.
Lemma build_leaf (x : ty) : build (levels x) (leaf x) = x.
Proof. induction x as [b|k c IH t]; cbn [levels leaf build fold_right fst snd]; [reflexivity|]. unfold build in IH. rewrite IH. reflexivity. Qed.
Lemma levels_build l (b : B) : levels (build l b) = (l : list (K * G)).
Proof. induction l as [|[k t] l IH]; cbn; [reflexivity|]. f_equal. exact IH. Qed.
Lemma leaf_build (l : list (K * G)) (b : B) : leaf (build l b) = b.
Proof. induction l as [|[k t] l IH]; cbn; auto. Qed.
Lemma rank_build (l : list (K * G)) (b : B) : rank (build l b) = length l.
Proof. rewrite rank_levels, levels_build. reflexivity. Qed.
Lemma keys_build l (b : B) : keys (build l b : ty) = map fst l.
Proof. unfold keys. rewrite levels_build. reflexivity. Qed.

Section SO.
Hypothesis SO : same_ok M.
Lemma ty_eqb_iff (x y : ty) : ty_eqb M x y = true <-> x = y.
Proof.
  revert y. induction x as [b|k c IH t]; intros [b'|k' c' t']; cbn [ty_eqb]; try (split; discriminate).
  - rewrite (so_b M SO). split; congruence.
  - rewrite !andb_true_iff, (so_k M SO), (so_g M SO), IH. split; [intros [[-> ->] ->]; reflexivity|]. intros E. repeat split; congruence.
Qed.
Lemma ctor_eq (to from : ty) : ctor M to from =
  match to with
  | TB a => match from with TB b => t_ctor M a b | TS _ c _ => t_int M a && ctor M to c end
  | TS k c t => if ty_eqb M from to then true else if rank from <? rank to then ctor M c from
    else match from with TS k' c' _ => if rank from =? rank to then t_keq M k' k && ctor M c c' else ctor M to c' | TB _ => false end
  end.
Proof. destruct to, from; reflexivity. Qed.

(** C78. Construction and conversion: from a type whose innermost keys are the same (whatever the tags), if the innermost coefficient type converts. *)
Theorem constructible_types : forall to from : ty,
  ctor M to from = true <-> nested (keys to) (keys from) /\ t_ctor M (leaf to) (leaf from) = true /\ (rank to = 0 -> rank from <> 0 -> t_int M (leaf to) = true).
Proof.
  assert (HH : forall n to from, rank to + rank from <= n -> ctor M to from = true <-> nested (keys to) (keys from) /\ t_ctor M (leaf to) (leaf from) = true /\ (rank to = 0 -> rank from <> 0 -> t_int M (leaf to) = true)).
  { induction n as [n IH] using lt_wf_ind. intros to from L. rewrite ctor_eq. destruct to as [a|k c t].
    - destruct from as [b|k' c' t'].
      + cbn [keys levels map leaf rank]. split; [|tauto]. intros H. split; [left; apply inner_refl|]. split; [exact H|lia].
      + cbn [rank] in L. rewrite andb_true_iff, (IH (n - 1) ltac:(lia) (TB a) c' ltac:(cbn [rank]; lia)). cbn [leaf rank]. split.
        * intros (T & (_ & H & _)). split; [left; exists (keys (TS k' c' t')); symmetry; apply app_nil_r|]. split; auto.
        * intros (_ & H & T). assert (t_int M a = true) by (apply T; auto; lia). split; [auto|]. split; [left; exists (keys c'); symmetry; apply app_nil_r|]. auto.
    - cbn [rank] in L. destruct (ty_eqb M from (TS k c t)) eqn:E.
      + apply ty_eqb_iff in E. subst from. split; [|auto]. intros _. split; [left; apply inner_refl|]. split; [apply (so_copy M SO)|cbn [rank]; lia].
      + change (rank (TS k c t)) with (S (rank c)). destruct (Nat.ltb_spec (rank from) (S (rank c))) as [H|H].
        * rewrite (IH (n - 1) ltac:(lia) c from ltac:(lia)). cbn [leaf]. change (keys (TS k c t)) with (k :: keys c).
          rewrite (nested_sym (k :: keys c)), (nested_cons (keys from) (keys c) k) by (rewrite !keys_len; lia). rewrite (nested_sym (keys from)).
          split; (intros (N & T & _); split; [exact N|split; [exact T|lia]]).
        * destruct from as [b|k' c' t']; [cbn [rank] in H; lia|]. cbn [rank] in H, L. change (rank (TS k' c' t')) with (S (rank c')). cbn [leaf]. change (keys (TS k c t)) with (k :: keys c). change (keys (TS k' c' t')) with (k' :: keys c').
          destruct (Nat.eqb_spec (S (rank c')) (S (rank c))) as [Q|Q].
          -- rewrite andb_true_iff, (so_k M SO), (IH (n - 2) ltac:(lia) c c' ltac:(lia)). rewrite (nested_same (k :: keys c)) by (cbn [length]; rewrite !keys_len; lia). rewrite (nested_same (keys c)) by (rewrite !keys_len; lia).
             split; [intros (-> & -> & T & _); split; [reflexivity|split; [exact T|lia]]|]. intros (X & T & _). split; [congruence|]. split; [congruence|]. split; [exact T|lia].
          -- rewrite (IH (n - 1) ltac:(lia) (TS k c t) c' ltac:(cbn [rank]; lia)). cbn [leaf]. change (keys (TS k c t)) with (k :: keys c).
             rewrite (nested_cons (k :: keys c) (keys c') k') by (cbn [length]; rewrite !keys_len; lia). cbn [rank]. split; (intros (N & T & _); split; [exact N|split; [exact T|lia]]). }
  intros to from. apply (HH (rank to + rank from)). lia.
Qed.

(** C78. Which algorithm serves a construction, a sum or an in-place sum: the one for its pair of ranks, and there is one exactly where the types allow the operation. *)
Theorem algorithm_by_rank : forall (op : B -> B -> option B) (to from : ty),
  (ctor_algo M to from <> 0 <-> rank to <> 0 /\ to <> from /\ nested (keys to) (keys from) /\ t_ctor M (leaf to) (leaf from) = true) /\
  (ctor_algo M to from <> 0 -> match ctor_algo M to from with 1 => rank from < rank to | 2 => rank from = rank to | 3 => rank to < rank from | _ => False end) /\
  (addsub_algo M op to from <> 0 <-> rank to + rank from <> 0 /\ addsub M op to from <> None) /\
  (addsub_algo M op to from <> 0 -> match addsub_algo M op to from with 1 => rank to < rank from | 2 => rank from < rank to | 3 => rank from = rank to | _ => False end) /\
  (in_place_algo M op to from <> 0 -> match in_place_algo M op to from with 1 => rank to < rank from | 2 => rank from < rank to | 3 => rank from = rank to | _ => False end).
Proof.
  intros op to from. pose proof (constructible_types to from) as CT. split; [|split; [|split; [|split]]].
  - unfold ctor_algo. destruct to as [b|k c t]; [cbn [rank]; split; [lia|intros [H _]; elim H; reflexivity]|].
    destruct (ty_eqb M from (TS k c t)) eqn:E; [apply ty_eqb_iff in E; split; [lia|intros (_ & H & _); elim H; symmetry; exact E]|].
    assert (N : TS k c t <> from) by (intros X; rewrite <- X in E; rewrite (proj2 (ty_eqb_iff _ _) eq_refl) in E; discriminate).
    destruct (ctor M (TS k c t) from) eqn:Q; cbn [negb].
    + split; [intros _|intros _; destruct (rank from <? _); [discriminate|destruct (rank from =? _); discriminate]]. destruct (proj1 CT eq_refl) as (X1 & X2 & _). split; [discriminate|]. split; [exact N|]. split; assumption.
    + split; [lia|]. intros (H & _ & X1 & X2). assert (false = true) by (apply CT; split; [exact X1|split; [exact X2|intros Z; elim H; exact Z]]). discriminate.
  - unfold ctor_algo. destruct to as [b|k c t]; [lia|]. destruct (ty_eqb M from (TS k c t)); [lia|]. destruct (negb _); [lia|]. intros _.
    destruct (Nat.ltb_spec (rank from) (rank (TS k c t))) as [H|H]; [exact H|]. destruct (Nat.eqb_spec (rank from) (rank (TS k c t))) as [H'|H']; [exact H'|lia].
  - unfold addsub_algo. destruct (Nat.eqb_spec (rank to) 0) as [H|H]; destruct (Nat.eqb_spec (rank from) 0) as [H'|H']; cbn [andb]; try (split; [lia|intros [X _]; lia]);
      (destruct (addsub M op to from); [split; [intros _; split; [lia|discriminate]|intros _; destruct (rank to <? rank from); [discriminate|destruct (rank from <? rank to); discriminate]]|split; [lia|intros [_ X]; elim X; reflexivity]]).
  - unfold addsub_algo. destruct (_ && _); [lia|]. destruct (addsub M op to from); [|lia]. intros _. destruct (Nat.ltb_spec (rank to) (rank from)) as [H|H]; [exact H|]. destruct (Nat.ltb_spec (rank from) (rank to)) as [H'|H']; [exact H'|lia].
  - unfold in_place_algo. destruct to as [b|k c t]; [lia|]. destruct (Nat.ltb_spec (rank (TS k c t)) (rank from)) as [H|H].
    + destruct (addsub M op (TS k c t) from) as [r|]; [|lia]. destruct (ctor M _ r); [intros _; exact H|lia].
    + destruct (Nat.ltb_spec (rank from) (rank (TS k c t))) as [H'|H']; [destruct (ctor M c from); [intros _; exact H'|lia]|]. destruct from as [b'|k' c' t']; [lia|]. destruct (_ && _); [intros _; lia|lia].
Qed.

(** Conversions the algorithms ask for. *)
Lemma ctor_build l (c : B) (x : ty) : nested l (levels x) -> length (levels x) <= length l -> t_ctor M c (leaf x) = true -> ctor M (build l c) x = true.
Proof.
  intros N L T. apply constructible_types. rewrite keys_build, leaf_build, rank_build. split; [apply nested_map; exact N|]. split; [exact T|]. rewrite rank_levels. lia.
Qed.

Lemma good_over (x : ty) c : good M x -> t_cf M c = true -> good M (build (levels x) c).
Proof.
  intros Gx T. induction x as [b|k d IH t]; [exact I|]. destruct Gx as (G1 & G2 & G3). cbn [levels build fold_right fst snd]. split; [|split; [exact G2|apply IH; exact G3]]. destruct d as [b'|k' d' t']; [exact T|exact G1].
Qed.
Lemma longer_or {A} (s l : list A) : longer s l = s \/ longer s l = l.
Proof. unfold longer. destruct (length s <? length l); auto. Qed.
Lemma nested3 {A} (a b c : list A) : (nested a b /\ nested (longer a b) c <-> nested b c /\ nested a (longer b c)) /\ (nested a b -> nested (longer a b) c -> longer (longer a b) c = longer a (longer b c)).
Proof.
  assert (ILa : forall s l : list A, nested s l -> inner_part s (longer s l) /\ inner_part l (longer s l)).
  { intros s l N. destruct (Nat.le_ge_cases (length s) (length l)) as [H|H]; [rewrite longer_le by auto; split; [apply nested_le; auto|apply inner_refl]|rewrite longer_ge by auto; split; [apply inner_refl|apply nested_le; auto; apply nested_sym; auto]]. }
  assert (F : forall a b c : list A, nested a b -> nested (longer a b) c -> nested b c /\ nested a c).
  { intros a0 b0 c0 N1 N2. destruct (ILa _ _ N1) as [I1 I2]. destruct (ILa _ _ N2) as [I3 I4]. split; (eapply inner_nested; [|exact I4]); eapply inner_trans; eauto. }
  assert (P : forall a b c : list A, nested a b -> nested a c -> nested b c -> nested (longer a b) c) by (intros a0 b0 c0 N1 N2 N3; destruct (longer_or a0 b0) as [->| ->]; auto).
  split.
  - split; intros [N1 N2].
    + destruct (F _ _ _ N1 N2) as [X Y]. split; [exact X|]. apply nested_sym, P; auto; apply nested_sym; auto.
    + apply nested_sym in N2. destruct (F _ _ _ N1 N2) as [X Y]. apply nested_sym in X, Y. split; auto.
  - intros N1 N2. destruct (F _ _ _ N1 N2) as [X Y].
    destruct (Nat.le_ge_cases (length a) (length b)) as [H1|H1]; destruct (Nat.le_ge_cases (length b) (length c)) as [H2|H2].
    + rewrite (longer_le a b), (longer_le b c) by auto. rewrite (longer_le a c); auto. lia.
    + rewrite (longer_le a b), (longer_ge b c) by auto. rewrite (longer_le a b); auto.
    + rewrite (longer_ge a b), (longer_le b c) by auto. reflexivity.
    + rewrite (longer_ge a b), (longer_ge b c) by auto. rewrite (longer_ge a c), (longer_ge a b); auto. lia.
Qed.

Section Op.
Context (op : B -> B -> option B).
Lemma addsub_eq (x y : ty) : addsub M op x y =
  match x, y with
  | TB a, TB b => option_map TB (op a b)
  | _, _ =>
    if rank x <? rank y then
      match y with
      | TS k c t => match addsub M op x c with Some rc => if is_cf M rc && ctor M (TS k rc t) y && ctor M rc x then Some (TS k rc t) else None | None => None end
      | TB _ => None end
    else match x with
      | TS k c t =>
        if rank y <? rank x then
          match addsub M op c y with Some rc => if is_cf M rc && ctor M (TS k rc t) x && ctor M rc y then Some (TS k rc t) else None | None => None end
        else match y with
          | TS k' c' t' => match addsub M op c c' with
            | Some rc => if t_keq M k k' && t_geq M t t' && is_cf M rc && (ctor M (TS k rc t) x && ctor M (TS k rc t) y && ctor M rc c && ctor M rc c' && t_merge M k) then Some (TS k rc t) else None
            | None => None end
          | TB _ => None end
      | TB _ => None end
  end.
Proof. destruct x, y; reflexivity. Qed.
Hypothesis PR : promotes M op.
Lemma good_build l (c : B) (x : ty) : good M x -> levels x = l -> t_cf M c = true -> is_cf M (build l c) = true.
Proof. intros Gx <- T. destruct x as [b|k c' t]; [exact T|]. apply Gx. Qed.

(** C78. The sum or difference of x and y exists if the innermost levels agree and the innermost coefficients can be added; the result has the levels of the
    operand of higher rank over the type of the innermost sum. *)
Theorem sum_types : forall x y r : ty, good M x -> good M y ->
  addsub M op x y = Some r <-> nested (levels x) (levels y) /\ exists c, op (leaf x) (leaf y) = Some c /\ r = build (longer (levels x) (levels y)) c.
Proof.
  assert (HH : forall n x y r, rank x + rank y <= n -> good M x -> good M y -> addsub M op x y = Some r <-> nested (levels x) (levels y) /\ exists c, op (leaf x) (leaf y) = Some c /\ r = build (longer (levels x) (levels y)) c).
  { induction n as [n IH] using lt_wf_ind. intros x y r L Gx Gy. rewrite addsub_eq.
    assert (CASE1 : forall k c t, y = TS k c t -> rank x < rank y -> match addsub M op x c with Some rc => if is_cf M rc && ctor M (TS k rc t) y && ctor M rc x then Some (TS k rc t) else None | None => None end = Some r <-> nested (levels x) (levels y) /\ exists c, op (leaf x) (leaf y) = Some c /\ r = build (longer (levels x) (levels y)) c).
    { intros k c t -> H. cbn [rank] in L, H. destruct Gy as (C1 & C2 & Gc). cbn [levels leaf]. pose proof (rank_levels x) as RX. pose proof (rank_levels c) as RC.
      rewrite (nested_cons (levels x) (levels c) (k, t)) by lia. destruct (addsub M op x c) as [rc|] eqn:E.
      - apply (IH (n - 1) ltac:(lia) x c rc ltac:(lia) Gx Gc) in E as (N & d & Ed & ->). rewrite longer_le by (auto; lia). destruct (PR _ _ _ Ed) as (P1 & P2 & P3).
        rewrite (good_build (levels c) d c Gc eq_refl P1). change (TS k (build (levels c) d) t) with (build ((k, t) :: levels c) d).
        rewrite (ctor_build ((k, t) :: levels c) d (TS k c t)) by (auto; left; apply inner_refl). rewrite (ctor_build (levels c) d x) by (auto; try apply nested_sym; auto; lia). cbn [andb].
        rewrite longer_le by (try (cbn [length]; lia); apply nested_cons; auto; lia). split; [intros Q; split; [exact N|]; exists d; split; [exact Ed|congruence]|].
        intros (_ & d' & Ed' & ->). congruence.
      - split; [discriminate|]. intros (N & d & Ed & _). exfalso. assert (X : addsub M op x c = Some (build (longer (levels x) (levels c)) d)) by (apply (IH (n - 1) ltac:(lia)); eauto; lia). congruence. }
    assert (CASE2 : forall k c t, x = TS k c t -> rank y < rank x -> match addsub M op c y with Some rc => if is_cf M rc && ctor M (TS k rc t) x && ctor M rc y then Some (TS k rc t) else None | None => None end = Some r <-> nested (levels x) (levels y) /\ exists c, op (leaf x) (leaf y) = Some c /\ r = build (longer (levels x) (levels y)) c).
    { intros k c t -> H. cbn [rank] in L, H. destruct Gx as (C1 & C2 & Gc). cbn [levels leaf]. pose proof (rank_levels y) as RX. pose proof (rank_levels c) as RC.
      rewrite (nested_sym _ (levels y)), (nested_cons (levels y) (levels c) (k, t)), (nested_sym (levels y)) by lia. rewrite (longer_ge ((k, t) :: levels c)) by (cbn [length]; lia). destruct (addsub M op c y) as [rc|] eqn:E.
      - apply (IH (n - 1) ltac:(lia) c y rc ltac:(lia) Gc Gy) in E as (N & d & Ed & ->). rewrite longer_ge by lia. destruct (PR _ _ _ Ed) as (P1 & P2 & P3).
        rewrite (good_build (levels c) d c Gc eq_refl P1). change (TS k (build (levels c) d) t) with (build ((k, t) :: levels c) d).
        rewrite (ctor_build ((k, t) :: levels c) d (TS k c t)) by (auto; left; apply inner_refl). rewrite (ctor_build (levels c) d y) by (auto; lia). cbn [andb].
        split; [intros Q; split; [exact N|]; exists d; split; [exact Ed|congruence]|]. intros (_ & d' & Ed' & ->). congruence.
      - split; [discriminate|]. intros (N & d & Ed & _). exfalso. assert (X : addsub M op c y = Some (build (longer (levels c) (levels y)) d)) by (apply (IH (n - 1) ltac:(lia)); eauto; lia). congruence. }
    destruct x as [a|k c t], y as [b|k' c' t'].
    - cbn [levels leaf longer length Nat.ltb Nat.leb build fold_right]. destruct (op a b) as [d|]; cbn [option_map]; split; try discriminate.
      + intros Q. split; [left; apply inner_refl|]. exists d. split; congruence.
      + intros (_ & d' & Q & ->). congruence.
      + intros (_ & d' & Q & _). congruence.
    - destruct (Nat.ltb_spec (@rank B K G (TB a)) (rank (TS k' c' t'))) as [H|H]; [exact (CASE1 _ _ _ eq_refl H)|cbn [rank] in H; lia].
    - destruct (Nat.ltb_spec (rank (TS k c t)) (@rank B K G (TB b))) as [H|H]; [cbn [rank] in H; lia|]. destruct (Nat.ltb_spec (@rank B K G (TB b)) (rank (TS k c t))) as [H'|H']; [exact (CASE2 _ _ _ eq_refl H')|cbn [rank] in H'; lia].
    - destruct (Nat.ltb_spec (rank (TS k c t)) (rank (TS k' c' t'))) as [H|H]; [exact (CASE1 _ _ _ eq_refl H)|]. destruct (Nat.ltb_spec (rank (TS k' c' t')) (rank (TS k c t))) as [H'|H']; [exact (CASE2 _ _ _ eq_refl H')|].
      clear CASE1 CASE2. cbn [rank] in L, H, H'. destruct Gx as (C1 & C2 & Gc). destruct Gy as (C1' & C2' & Gc'). cbn [levels leaf]. pose proof (rank_levels c') as RX. pose proof (rank_levels c) as RC. rewrite (nested_same ((k, t) :: levels c)) by (cbn [length]; lia). rewrite (longer_ge ((k, t) :: levels c)) by (cbn [length]; lia).
      destruct (addsub M op c c') as [rc|] eqn:E.
      + apply (IH (n - 1) ltac:(lia) c c' rc ltac:(lia) Gc Gc') in E as (N & d & Ed & ->). rewrite longer_ge by lia. destruct (PR _ _ _ Ed) as (P1 & P2 & P3).
        assert (LE : levels c = levels c') by (apply nested_same; auto; lia). rewrite (good_build (levels c) d c Gc eq_refl P1). change (TS k (build (levels c) d) t) with (build ((k, t) :: levels c) d).
        rewrite (ctor_build ((k, t) :: levels c) d (TS k c t)) by (auto; left; apply inner_refl). rewrite (ctor_build (levels c) d c) by (auto; left; apply inner_refl). rewrite (ctor_build (levels c) d c') by (auto; lia). rewrite C2. cbn [andb].
        destruct (t_keq M k k') eqn:EK; [|cbn [andb]; split; [discriminate|]; intros (X & _); assert (k = k') by congruence; apply (so_k M SO) in H0; congruence].
        destruct (t_geq M t t') eqn:EG; [|cbn [andb]; split; [discriminate|]; intros (X & _); assert (t = t') by congruence; apply (so_g M SO) in H0; congruence].
        apply (so_k M SO) in EK. apply (so_g M SO) in EG. subst k' t'. rewrite (ctor_build ((k, t) :: levels c) d (TS k c' t)) by (auto; cbn [levels length]; try lia; rewrite LE; left; apply inner_refl). cbn [andb].
        split; [intros Q; split; [congruence|]; exists d; split; [exact Ed|congruence]|]. intros (_ & d' & Ed' & ->). congruence.
      + split; [discriminate|]. intros (N & d & Ed & _). exfalso. assert (levels c = levels c') by congruence. assert (X : addsub M op c c' = Some (build (longer (levels c) (levels c')) d)). { apply (IH (n - 1) ltac:(lia)); auto; try lia. split; [apply nested_same; auto; lia|]. exists d. auto. } congruence. }
  intros x y r. apply (HH (rank x + rank y)). lia.
Qed.

(** C78. The rank of a sum. *)
Theorem sum_rank : forall x y r : ty, good M x -> good M y -> addsub M op x y = Some r -> rank r = Nat.max (rank x) (rank y) /\ good M r.
Proof.
  intros x y r Gx Gy E. apply sum_types in E as (N & c & Ec & ->); auto. destruct (PR _ _ _ Ec) as (P1 & _). rewrite rank_build. unfold longer. rewrite !rank_levels. destruct (Nat.ltb_spec (length (levels x)) (length (levels y))).
  - split; [lia|]. apply good_over; auto.
  - split; [lia|]. apply good_over; auto.
Qed.
(** C78. x + y and y + x have the same type, and exist together. *)
Theorem sum_types_commute : (forall a b, op a b = op b a) -> forall x y : ty, good M x -> good M y -> addsub M op x y = addsub M op y x.
Proof.
  intros CM x y Gx Gy. assert (X : forall r, addsub M op x y = Some r <-> addsub M op y x = Some r).
  { intros r. rewrite !sum_types by auto. rewrite (nested_sym (levels x)), CM. split; (intros (N & c & E & ->); split; [exact N|]; exists c; split; [exact E|]; rewrite longer_sym; auto; apply nested_sym; auto). }
  destruct (addsub M op x y) as [r|]; [symmetry; apply X; reflexivity|]. destruct (addsub M op y x) as [r|]; [|reflexivity]. apply X. reflexivity.
Qed.
(** C78. (x + y) + z and x + (y + z) have the same type, and exist together. *)
Theorem sum_types_associate : (forall a b c, match op a b with Some d => op d c | None => None end = match op b c with Some d => op a d | None => None end) ->
  forall x y z : ty, good M x -> good M y -> good M z ->
  match addsub M op x y with Some s => addsub M op s z | None => None end = match addsub M op y z with Some s => addsub M op x s | None => None end.
Proof.
  intros AS x y z Gx Gy Gz.
  assert (L1 : forall r, match addsub M op x y with Some s => addsub M op s z | None => None end = Some r <->
    nested (levels x) (levels y) /\ nested (longer (levels x) (levels y)) (levels z) /\ exists c, match op (leaf x) (leaf y) with Some d => op d (leaf z) | None => None end = Some c /\ r = build (longer (longer (levels x) (levels y)) (levels z)) c).
  { intros r. destruct (addsub M op x y) as [s|] eqn:E.
    - destruct (sum_rank _ _ _ Gx Gy E) as [_ Gs]. apply sum_types in E as (N & d & Ed & ->); auto. rewrite sum_types by auto. rewrite levels_build, leaf_build, Ed. tauto.
    - split; [discriminate|]. intros (N & _ & c & E2 & _). destruct (op (leaf x) (leaf y)) as [d|] eqn:Ed; [|discriminate]. assert (X : addsub M op x y = Some (build (longer (levels x) (levels y)) d)) by (apply sum_types; eauto). congruence. }
  assert (L2 : forall r, match addsub M op y z with Some s => addsub M op x s | None => None end = Some r <->
    nested (levels y) (levels z) /\ nested (levels x) (longer (levels y) (levels z)) /\ exists c, match op (leaf y) (leaf z) with Some d => op (leaf x) d | None => None end = Some c /\ r = build (longer (levels x) (longer (levels y) (levels z))) c).
  { intros r. destruct (addsub M op y z) as [s|] eqn:E.
    - destruct (sum_rank _ _ _ Gy Gz E) as [_ Gs]. apply sum_types in E as (N & d & Ed & ->); auto. rewrite sum_types by auto. rewrite levels_build, leaf_build, Ed. tauto.
    - split; [discriminate|]. intros (N & _ & c & E2 & _). destruct (op (leaf y) (leaf z)) as [d|] eqn:Ed; [|discriminate]. assert (X : addsub M op y z = Some (build (longer (levels y) (levels z)) d)) by (apply sum_types; eauto). congruence. }
  assert (X : forall r, match addsub M op x y with Some s => addsub M op s z | None => None end = Some r <-> match addsub M op y z with Some s => addsub M op x s | None => None end = Some r).
  { intros r. rewrite L1, L2. rewrite AS. destruct (nested3 (levels x) (levels y) (levels z)) as [A Q]. split.
    - intros (N1 & N2 & H). destruct (proj1 A (conj N1 N2)) as [N3 N4]. rewrite <- Q by auto. auto.
    - intros (N1 & N2 & H). destruct (proj2 A (conj N1 N2)) as [N3 N4]. rewrite Q by auto. auto. }
  destruct (match addsub M op x y with Some s => addsub M op s z | None => None end) as [r|]; [symmetry; apply X; reflexivity|].
  destruct (match addsub M op y z with Some s => addsub M op x s | None => None end) as [r|]; [|reflexivity]. apply X. reflexivity.
Qed.

(** C78. In-place sums and differences never change the type of the left operand (a series); the right operand must convert, not add. *)
Theorem in_place_types : forall x y : ty, good M x -> good M y -> rank x <> 0 ->
  in_place_algo M op x y <> 0 <->
  ((rank x < rank y)%nat /\ inner_part (levels x) (levels y) /\ (exists c, op (leaf x) (leaf y) = Some c /\ t_ctor M (leaf x) c = true)) \/
  ((rank y < rank x)%nat /\ inner_part (keys y) (keys x) /\ t_ctor M (leaf x) (leaf y) = true) \/
  (rank x = rank y /\ keys x = keys y /\ hd_error (levels x) = hd_error (levels y) /\ t_ctor M (leaf x) (leaf y) = true).
Proof.
  intros x y Gx Gy R. unfold in_place_algo. destruct x as [a|k c t]; [elim R; reflexivity|]. destruct (Nat.ltb_spec (rank (TS k c t)) (rank y)) as [H|H].
  - split.
    + intros Q. left. split; [exact H|]. destruct (addsub M op (TS k c t) y) as [r|] eqn:E; [|elim Q; reflexivity]. apply sum_types in E as (N & d & Ed & ->); auto. pose proof (rank_levels (TS k c t)) as R1. pose proof (rank_levels y) as R2.
      split; [apply nested_le; auto; lia|]. exists d. split; [exact Ed|]. destruct (ctor M (TS k c t) (build (longer (levels (TS k c t)) (levels y)) d)) eqn:EC; [|elim Q; reflexivity]. apply constructible_types in EC as (_ & T & _). rewrite leaf_build in T. exact T.
    + intros [(_ & N & d & Ed & T)|[(X & _)|(X & _)]]; try lia. pose proof (rank_levels (TS k c t)) as R1. pose proof (rank_levels y) as R2.
      assert (E : addsub M op (TS k c t) y = Some (build (longer (levels (TS k c t)) (levels y)) d)) by (apply sum_types; auto; split; [left; exact N|]; eauto).
      rewrite E. assert (EC : ctor M (TS k c t) (build (longer (levels (TS k c t)) (levels y)) d) = true).
      { apply constructible_types. rewrite keys_build, leaf_build, longer_le by (try lia; left; exact N). split; [apply nested_map; left; exact N|]. split; [exact T|]. cbn [rank]. lia. }
      rewrite EC. discriminate.
  - destruct (Nat.ltb_spec (rank y) (rank (TS k c t))) as [H'|H'].
    + assert (X : ctor M c y = true <-> inner_part (keys y) (keys (TS k c t)) /\ t_ctor M (leaf (TS k c t)) (leaf y) = true).
      { rewrite constructible_types. change (keys (TS k c t)) with (k :: keys c). cbn [rank leaf] in *. rewrite inner_cons by (rewrite !keys_len; lia). rewrite nested_sym, nested_le by (rewrite !keys_len; lia). split; [tauto|]. intros [A T]. split; [exact A|]. split; [exact T|lia]. }
      destruct (ctor M c y); split.
      * intros _. right. left. split; [exact H'|]. apply X. reflexivity.
      * discriminate.
      * intros Q. elim Q. reflexivity.
      * intros [(Y & _)|[(_ & Y)|(Y & _)]]; try lia. apply X in Y. discriminate.
    + destruct y as [b|k' c' t']; [cbn [rank] in H'; lia|]. cbn [rank] in H, H'. cbn [leaf levels hd_error]. change (keys (TS k c t)) with (k :: keys c). change (keys (TS k' c' t')) with (k' :: keys c').
      destruct Gx as (_ & C2 & _). rewrite C2, andb_true_r.
      assert (X : t_keq M k k' && t_geq M t t' && ctor M c c' = true <-> k :: keys c = k' :: keys c' /\ Some (k, t) = Some (k', t') /\ t_ctor M (leaf c) (leaf c') = true).
      { rewrite !andb_true_iff, (so_k M SO), (so_g M SO), constructible_types, nested_same by (rewrite !keys_len; lia). split; [intros [[-> ->] (-> & T & _)]; auto|]. intros (A & D & T). repeat split; try congruence. cbn. lia. }
      destruct (t_keq M k k' && t_geq M t t' && ctor M c c'); split.
      * intros _. right. right. split; [cbn [rank]; lia|]. apply X. reflexivity.
      * discriminate.
      * intros Q. elim Q. reflexivity.
      * intros [(Y & _)|[(Y & _)|(_ & Y)]]; try (cbn [rank] in Y; lia). apply X in Y. discriminate.
Qed.
End Op.

Lemma shorter_le {A} (s l : list A) : nested s l -> length s <= length l -> shorter s l = s.
Proof. intros N H. unfold shorter. destruct (Nat.ltb_spec (length s) (length l)); auto. symmetry. apply nested_same; auto. lia. Qed.
Lemma shorter_ge {A} (s l : list A) : length l <= length s -> shorter s l = l.
Proof. intros H. unfold shorter. destruct (Nat.ltb_spec (length s) (length l)); auto. lia. Qed.

Section Mul.
Hypothesis PR : promotes M (t_mul M).
Hypothesis AB : absorbs M (t_mul M) (t_imul M).
Hypothesis PU : forall t t', t_poly M t = true -> t_poly M t' = true -> t = t'.
Definition imul n (c z : ty) := match c, z with TB a, TB b => t_imul M a b | _, _ => match mul_n M n c z with Some r => ctor M c r | None => false end end.
Lemma mul_eq n (x y : ty) : mul_n M (S n) x y =
  match x, y with
  | TB a, TB b => option_map TB (t_mul M a b)
  | _, _ =>
    if rank x =? rank y then
      match x, y with
      | TS k c t, TS k' c' t' => if t_keq M k k' && (t_poly M t && t_poly M t') then match mul_n M n c c' with Some rc => if is_cf M rc && t_merge M k && t_mmul M k then Some (TS k rc t) else None | None => None end else None
      | _, _ => None end
    else if negb (zero_testable M x) || negb (zero_testable M y) then None
    else if rank x <? rank y then
      match y with TS k c t => match mul_n M n x c with Some rc => if is_cf M rc && ctor M (TS k rc t) y && imul n rc x then Some (TS k rc t) else None | None => None end | TB _ => None end
    else match x with TS k c t => match mul_n M n c y with Some rc => if is_cf M rc && ctor M (TS k rc t) x && imul n rc y then Some (TS k rc t) else None | None => None end | TB _ => None end
  end.
Proof. destruct x, y; reflexivity. Qed.

Definition product_type (x y r : ty) : Prop := nested (levels x) (levels y) /\ polys M (shorter (levels x) (levels y)) /\ exists c, t_mul M (leaf x) (leaf y) = Some c /\ r = build (longer (levels x) (levels y)) c.
Lemma mul_n_types : forall n (x y r : ty), rank x + rank y < n -> good M x -> good M y -> mul_n M n x y = Some r <-> product_type x y r.
Proof.
  induction n as [|n IH]; intros x y r L Gx Gy; [lia|]. rewrite mul_eq. unfold product_type.
  assert (IM : forall c z d, good M c -> good M z -> rank z <= rank c -> rank c + rank z < n -> nested (levels c) (levels z) -> polys M (levels z) -> t_cf M d = true -> t_mul M d (leaf z) = Some d -> t_imul M d (leaf z) = true -> imul n (build (levels c) d) z = true).
  { intros c z d Gc Gz Lz Ln N P T E E2. pose proof (rank_levels c) as R1. pose proof (rank_levels z) as R2.
    assert (X : mul_n M n (build (levels c) d) z = Some (build (levels c) d)).
    { apply IH; auto; [rewrite rank_build; lia|apply good_over; auto|]. unfold product_type. rewrite levels_build, leaf_build. split; [exact N|]. rewrite shorter_ge, longer_ge by lia. split; [exact P|]. exists d. auto. }
    unfold imul. rewrite X. rewrite (ctor_build (levels c) d (build (levels c) d)); [|rewrite levels_build; left; apply inner_refl|rewrite levels_build; lia|rewrite leaf_build; apply (so_copy M SO)].
    destruct c as [b|k c t]; [|reflexivity]. destruct z as [b'|]; [|reflexivity]. exact E2. }
  assert (ZT : forall z z' d, t_mul M (leaf z) (leaf z') = Some d -> zero_testable M z = true /\ zero_testable M z' = true).
  { intros z z' d E. destruct (AB _ _ _ E) as (_ & _ & _ & _ & Z1 & Z2). destruct z, z'; split; auto. }
  assert (CASE1 : forall k c t, y = TS k c t -> rank x < rank y -> (if negb (zero_testable M x) || negb (zero_testable M y) then None else match mul_n M n x c with Some rc => if is_cf M rc && ctor M (TS k rc t) y && imul n rc x then Some (TS k rc t) else None | None => None end) = Some r
     <-> nested (levels x) (levels y) /\ polys M (shorter (levels x) (levels y)) /\ exists c, t_mul M (leaf x) (leaf y) = Some c /\ r = build (longer (levels x) (levels y)) c).
  { intros k c t -> H. cbn [rank] in L, H. pose proof Gy as (C1 & C2 & Gc). cbn [levels leaf]. pose proof (rank_levels x) as RX. pose proof (rank_levels c) as RC.
    rewrite (nested_cons (levels x) (levels c) (k, t)) by lia. pose proof (IH x c) as IHc. destruct (mul_n M n x c) as [rc|].
    - destruct (proj1 (IHc rc ltac:(lia) Gx Gc) eq_refl) as (N & P & d & Ed & ->). destruct (ZT x (TS k c t) d Ed) as [Z1 Z2]. rewrite Z1, Z2. cbn [negb orb]. rewrite longer_le by (auto; lia). destruct (PR _ _ _ Ed) as (P1 & P2 & P3). destruct (AB _ _ _ Ed) as (A1 & A2 & A3 & A4 & _).
      rewrite shorter_le in P by (auto; lia).
      rewrite (good_build (levels c) d c Gc eq_refl P1). rewrite (IM c x d) by (auto; try apply nested_sym; auto; lia). change (TS k (build (levels c) d) t) with (build ((k, t) :: levels c) d).
      rewrite (ctor_build ((k, t) :: levels c) d (TS k c t)) by (auto; left; apply inner_refl). cbn [andb].
      assert (NC : nested (levels x) ((k, t) :: levels c)) by (apply nested_cons; auto; lia). rewrite longer_le by (auto; cbn [length]; lia). rewrite shorter_le by (auto; cbn [length]; lia).
      split; [intros Q; split; [exact N|]; split; [exact P|]; exists d; split; [exact Ed|congruence]|]. intros (_ & _ & d' & Ed' & ->). congruence.
    - split; [destruct (negb _ || _); discriminate|]. intros (N & P & d & Ed & _). exfalso. rewrite shorter_le in P by (try (cbn [length]; lia); apply nested_cons; auto; lia).
      assert (X : (None : option ty) = Some (build (longer (levels x) (levels c)) d)) by (apply IHc; auto; [lia|]; split; [exact N|]; split; [rewrite shorter_le by (auto; lia); exact P|]; eauto). discriminate. }
  assert (CASE2 : forall k c t, x = TS k c t -> rank y < rank x -> (if negb (zero_testable M x) || negb (zero_testable M y) then None else match mul_n M n c y with Some rc => if is_cf M rc && ctor M (TS k rc t) x && imul n rc y then Some (TS k rc t) else None | None => None end) = Some r
     <-> nested (levels x) (levels y) /\ polys M (shorter (levels x) (levels y)) /\ exists c, t_mul M (leaf x) (leaf y) = Some c /\ r = build (longer (levels x) (levels y)) c).
  { intros k c t -> H. cbn [rank] in L, H. pose proof Gx as (C1 & C2 & Gc). cbn [levels leaf]. pose proof (rank_levels y) as RX. pose proof (rank_levels c) as RC.
    rewrite (nested_sym _ (levels y)), (nested_cons (levels y) (levels c) (k, t)), (nested_sym (levels y)) by lia. rewrite (longer_ge ((k, t) :: levels c)), (shorter_ge ((k, t) :: levels c)) by (cbn [length]; lia). pose proof (IH c y) as IHc. destruct (mul_n M n c y) as [rc|].
    - destruct (proj1 (IHc rc ltac:(lia) Gc Gy) eq_refl) as (N & P & d & Ed & ->). destruct (ZT (TS k c t) y d Ed) as [Z1 Z2]. rewrite Z1, Z2. cbn [negb orb]. rewrite longer_ge by lia. destruct (PR _ _ _ Ed) as (P1 & P2 & P3). destruct (AB _ _ _ Ed) as (A1 & A2 & A3 & A4 & _).
      rewrite shorter_ge in P by lia.
      rewrite (good_build (levels c) d c Gc eq_refl P1). rewrite (IM c y d) by (auto; lia). change (TS k (build (levels c) d) t) with (build ((k, t) :: levels c) d).
      rewrite (ctor_build ((k, t) :: levels c) d (TS k c t)) by (auto; left; apply inner_refl). cbn [andb].
      split; [intros Q; split; [exact N|]; split; [exact P|]; exists d; split; [exact Ed|congruence]|]. intros (_ & _ & d' & Ed' & ->). congruence.
    - split; [destruct (negb _ || _); discriminate|]. intros (N & P & d & Ed & _). exfalso.
      assert (X : (None : option ty) = Some (build (longer (levels c) (levels y)) d)) by (apply IHc; auto; [lia|]; split; [exact N|]; split; [rewrite shorter_ge by lia; exact P|]; eauto). discriminate. }
  destruct x as [a|k c t], y as [b|k' c' t'].
  - cbn [levels leaf longer shorter length Nat.ltb Nat.leb build fold_right]. destruct (t_mul M a b) as [d|]; cbn [option_map]; split; try discriminate.
    + intros Q. split; [left; apply inner_refl|]. split; [intros ? ? []|]. exists d. split; congruence.
    + intros (_ & _ & d' & Q & ->). congruence.
    + intros (_ & _ & d' & Q & _). congruence.
  - change (@rank B K G (TB a) =? rank (TS k' c' t')) with false. cbn iota. change (@rank B K G (TB a) <? rank (TS k' c' t')) with true. cbn iota. apply (CASE1 _ _ _ eq_refl). cbn [rank]. lia.
  - change (rank (TS k c t) =? @rank B K G (TB b)) with false. cbn iota. change (rank (TS k c t) <? @rank B K G (TB b)) with false. cbn iota. apply (CASE2 _ _ _ eq_refl). cbn [rank]. lia.
  - destruct (Nat.eqb_spec (rank (TS k c t)) (rank (TS k' c' t'))) as [Q|Q].
    + clear CASE1 CASE2. cbn [rank] in L, Q. destruct Gx as (C1 & C2 & Gc). destruct Gy as (C1' & C2' & Gc'). cbn [levels leaf]. pose proof (rank_levels c') as RX. pose proof (rank_levels c) as RC.
      rewrite (nested_same ((k, t) :: levels c)) by (cbn [length]; lia). rewrite (longer_ge ((k, t) :: levels c)), (shorter_ge ((k, t) :: levels c)) by (cbn [length]; lia). rewrite C2.
      pose proof (IH c c') as IHc. destruct (t_keq M k k') eqn:EK; cbn [andb]; [|split; [discriminate|]; intros (X & _); assert (k = k') by congruence; apply (so_k M SO) in H; congruence]. apply (so_k M SO) in EK. subst k'.
      destruct (t_poly M t) eqn:T1; cbn [andb]; [|split; [discriminate|]; intros (X & P & _); assert (t = t') by congruence; subst t'; destruct (P k t (or_introl eq_refl)); congruence].
      destruct (t_poly M t') eqn:T2; cbn [andb]; [|split; [discriminate|]; intros (X & P & _); destruct (P k t' (or_introl eq_refl)); congruence]. pose proof (PU _ _ T1 T2). subst t'.
      destruct (mul_n M n c c') as [rc|].
      * destruct (proj1 (IHc rc ltac:(lia) Gc Gc') eq_refl) as (N & P & d & Ed & ->). rewrite longer_ge by lia. rewrite shorter_ge in P by lia. destruct (PR _ _ _ Ed) as (P1 & P2 & P3).
        assert (LE : levels c = levels c') by (apply nested_same; auto; lia). rewrite (good_build (levels c) d c Gc eq_refl P1). cbn [andb]. destruct (t_mmul M k) eqn:EM; [|split; [discriminate|]; intros (_ & PP & _); destruct (PP k t (or_introl eq_refl)); congruence].
        split.
        -- intros R. split; [congruence|]. split; [intros k1 t1 [J|J]; [assert (k1 = k /\ t1 = t) as [-> ->] by (split; congruence); auto|apply P; auto]|]. exists d. split; [exact Ed|]. change (build ((k, t) :: levels c) d) with (TS k (build (levels c) d) t). congruence.
        -- intros (_ & _ & d' & Ed' & ->). change (build ((k, t) :: levels c) d') with (TS k (build (levels c) d') t). congruence.
      * split; [discriminate|]. intros (N & P & d & Ed & _). exfalso. assert (levels c = levels c') by congruence.
        assert (X : (None : option ty) = Some (build (longer (levels c) (levels c')) d)) by (apply IHc; auto; [lia|]; split; [apply nested_same; auto; lia|]; split; [rewrite shorter_ge by lia; intros k1 t1 J; apply P; right; exact J|]; eauto). discriminate.
    + destruct (Nat.ltb_spec (rank (TS k c t)) (rank (TS k' c' t'))) as [H|H]; [exact (CASE1 _ _ _ eq_refl H)|]. apply (CASE2 _ _ _ eq_refl). lia.
Qed.
(** C78. Products: as sums, but the levels the factors have in common must be polynomials. *)
Theorem product_types : forall x y r : ty, good M x -> good M y ->
  mul M x y = Some r <-> nested (levels x) (levels y) /\ polys M (shorter (levels x) (levels y)) /\ exists c, t_mul M (leaf x) (leaf y) = Some c /\ r = build (longer (levels x) (levels y)) c.
Proof. intros x y r Gx Gy. apply mul_n_types; auto. Qed.
End Mul.

Section Div.
Hypothesis PR : promotes M (t_div M).
Hypothesis AB : absorbs_right (t_div M) (t_idiv M).
Definition idiv n (c z : ty) := match c, z with TB a, TB b => t_idiv M a b | _, _ => match div_n M n c z with Some r => ctor M c r | None => false end end.
Lemma div_eq n (x y : ty) : div_n M (S n) x y =
  match x, y with
  | TB a, TB b => option_map TB (t_div M a b)
  | TS k c t, _ => if rank y <? rank x then match div_n M n c y with Some rc => if is_cf M rc && ctor M (TS k rc t) x && idiv n rc y then Some (TS k rc t) else None | None => None end else None
  | _, _ => None
  end.
Proof. destruct x, y; reflexivity. Qed.
(** C78. Quotients: a series can be divided only by a non-series type, by which its innermost coefficients can be divided. *)
Theorem quotient_types : forall x y r : ty, good M x -> div M x y = Some r <-> exists b c, y = TB b /\ t_div M (leaf x) b = Some c /\ r = build (levels x) c.
Proof.
  assert (HH : forall n x y r, rank x + rank y < n -> good M x -> div_n M n x y = Some r <-> exists b c, y = TB b /\ t_div M (leaf x) b = Some c /\ r = build (levels x) c).
  { induction n as [|n IH]; intros x y r L Gx; [lia|]. rewrite div_eq. destruct x as [a|k c t].
    - destruct y as [b|k' c' t']; [|split; [discriminate|]; intros (b & d & X & _); discriminate]. cbn [leaf levels build fold_right]. destruct (t_div M a b) as [d|] eqn:E; cbn [option_map]; split; try discriminate.
      + intros Q. exists b, d. split; [reflexivity|]. split; congruence.
      + intros (b' & d' & X & Q & ->). assert (b = b') by congruence. subst b'. congruence.
      + intros (b' & d' & X & Q & ->). assert (b = b') by congruence. subst b'. congruence.
    - cbn [rank] in L. cbn [leaf levels]. pose proof Gx as (C1 & C2 & Gc). change (rank (TS k c t)) with (S (rank c)). pose proof (rank_levels c) as RC.
      destruct (Nat.ltb_spec (rank y) (S (rank c))) as [H|H]; [|split; [discriminate|]; intros (b & d & -> & _); cbn [rank] in H; lia].
      pose proof (IH c y) as IHc. destruct (div_n M n c y) as [rc|].
      + destruct (proj1 (IHc rc ltac:(lia) Gc) eq_refl) as (b & d & -> & Ed & ->). destruct (PR _ _ _ Ed) as (P1 & P2 & P3). destruct (AB _ _ _ Ed) as [A1 A2]. rewrite (good_build (levels c) d c Gc eq_refl P1).
        assert (ID : idiv n (build (levels c) d) (TB b) = true).
        { assert (X : div_n M n (build (levels c) d) (TB b) = Some (build (levels c) d)). { apply IH; [rewrite rank_build; cbn [rank]; lia|apply good_over; auto|]. rewrite leaf_build, levels_build. exists b, d. auto. }
          unfold idiv. rewrite X. rewrite (ctor_build (levels c) d (build (levels c) d)); [|rewrite levels_build; left; apply inner_refl|rewrite levels_build; lia|rewrite leaf_build; apply (so_copy M SO)]. destruct c; [exact A2|reflexivity]. }
        rewrite ID. change (TS k (build (levels c) d) t) with (build ((k, t) :: levels c) d). rewrite (ctor_build ((k, t) :: levels c) d (TS k c t)) by (auto; left; apply inner_refl). cbn [andb].
        split; [intros Q; exists b, d; split; [reflexivity|]; split; [exact Ed|congruence]|]. intros (b' & d' & X & Ed' & ->). assert (b = b') by congruence. subst b'. congruence.
      + split; [discriminate|]. intros (b & d & -> & Ed & _). exfalso. assert (X : (None : option ty) = Some (build (levels c) d)) by (apply IHc; auto; [lia|]; eauto). discriminate. }
  intros x y r. apply (HH (S (rank x + rank y))). lia.
Qed.
End Div.

Section Eq.
Hypothesis SY : forall a b, t_eqc M a b = t_eqc M b a.
Hypothesis ZT : forall b, t_zt M b = true.
Lemma eqc_eq n (x y : ty) : eqc_n M (S n) x y =
  match x, y with
  | TB a, TB b => t_eqc M a b
  | _, _ =>
    if rank x <? rank y then match y with TS _ c _ => zero_testable M x && eqc_n M n x c | TB _ => false end
    else if rank y <? rank x then match x with TS _ c _ => zero_testable M y && eqc_n M n y c | TB _ => false end
    else match x, y with TS k c t, TS k' c' t' => t_keq M k k' && t_geq M t t' && (t_merge M k && eqc_n M n c c') | _, _ => false end
  end.
Proof. destruct x, y; reflexivity. Qed.
(** C78. Comparison: exactly of types whose innermost levels agree and whose innermost coefficients are comparable; in both orders. *)
Theorem comparable_types : forall x y : ty, good M x -> good M y -> eqc M x y = true <-> nested (levels x) (levels y) /\ t_eqc M (leaf x) (leaf y) = true.
Proof.
  assert (HH : forall n x y, rank x + rank y < n -> good M x -> good M y -> eqc_n M n x y = true <-> nested (levels x) (levels y) /\ t_eqc M (leaf x) (leaf y) = true).
  { induction n as [|n IH]; intros x y L Gx Gy; [lia|]. rewrite eqc_eq. assert (Z0 : forall z, zero_testable M z = true) by (intros [b|]; cbn; auto). rewrite !Z0. cbn [andb].
    pose proof (rank_levels x) as RX. pose proof (rank_levels y) as RY.
    destruct x as [a|k c t], y as [b|k' c' t'].
    - cbn [levels leaf]. split; [|tauto]. intros H. split; [left; apply inner_refl|exact H].
    - change (@rank B K G (TB a) <? rank (TS k' c' t')) with true. cbn iota. destruct Gy as (_ & _ & Gc). rewrite IH by (auto; cbn [rank] in *; lia). cbn [levels leaf]. rewrite (nested_cons (levels (TB a)) (levels c') (k', t')) by (cbn; lia). reflexivity.
    - change (rank (TS k c t) <? @rank B K G (TB b)) with false. change (@rank B K G (TB b) <? rank (TS k c t)) with true. cbn iota. destruct Gx as (_ & _ & Gc). rewrite IH by (auto; cbn [rank] in *; lia). cbn [levels leaf]. rewrite (nested_sym (_ :: _)), (nested_cons (levels (TB b)) (levels c) (k, t)) by (cbn; lia). rewrite SY. reflexivity.
    - destruct (Nat.ltb_spec (rank (TS k c t)) (rank (TS k' c' t'))) as [H|H].
      + destruct Gy as (_ & _ & Gc). rewrite IH by (auto; cbn [rank] in *; lia). cbn [leaf]. change (levels (TS k' c' t')) with ((k', t') :: levels c'). rewrite nested_cons by (pose proof (rank_levels c'); cbn [rank] in *; lia). reflexivity.
      + destruct (Nat.ltb_spec (rank (TS k' c' t')) (rank (TS k c t))) as [H'|H'].
        * destruct Gx as (_ & _ & Gc). rewrite IH by (auto; cbn [rank] in *; lia). cbn [leaf]. change (levels (TS k c t)) with ((k, t) :: levels c). rewrite (nested_sym (_ :: levels c)), nested_cons by (pose proof (rank_levels c); cbn [rank] in *; lia). rewrite SY. reflexivity.
        * destruct Gx as (_ & C2 & Gc). destruct Gy as (_ & _ & Gc'). rewrite C2. cbn [andb]. rewrite !andb_true_iff, (so_k M SO), (so_g M SO), IH by (auto; cbn [rank] in *; lia). cbn [levels leaf]. pose proof (rank_levels c). pose proof (rank_levels c'). cbn [rank] in *.
          rewrite (nested_same (levels c)) by lia. rewrite nested_same by (cbn [length]; lia). split; [intros [[-> ->] [-> E]]; auto|]. intros [E1 E2]. repeat split; auto; congruence. }
  intros x y. apply (HH (S (rank x + rank y))). lia.
Qed.
End Eq.
End SO.
End T.

Print Assumptions constructible_types.
Print Assumptions algorithm_by_rank.
Print Assumptions sum_types.
Print Assumptions sum_types_commute.
Print Assumptions sum_types_associate.
Print Assumptions in_place_types.
Print Assumptions product_types.
Print Assumptions quotient_types.
Print Assumptions comparable_types.

(** * The hypotheses are met: mp++ integers, rationals and double; packed and dynamic packed monomials; polynomials and power series *)
Inductive xb := bI | bQ | bD.
Inductive xk := kP | kD.
Inductive xg := gPoly | gPs.
Definition xb_eqb a b := match a, b with bI, bI | bQ, bQ | bD, bD => true | _, _ => false end.
Definition join a b := match a, b with bD, _ | _, bD => bD | bQ, _ | _, bQ => bQ | _, _ => bI end.
Definition XM : tbl xb xk xg := Tbl xb xk xg xb_eqb (fun a b => match a, b with kP, kP | kD, kD => true | _, _ => false end) (fun a b => match a, b with gPoly, gPoly | gPs, gPs => true | _, _ => false end)
  (fun a b => Some (join a b)) (fun a b => Some (join a b)) (fun a b => Some (join a b)) (fun a b => Some (join a b)) (fun _ _ => true) (fun _ => true) (fun _ _ => true) (fun _ _ => true) (fun _ _ => true) (fun _ => true) (fun _ => true) (fun _ => true) (fun _ => true)
  (fun g => match g with gPoly => true | gPs => false end).
(** polynomial<K, polynomial<K, integer>>, polynomial<K, double>, polynomial<K, power_series<K, integer>>. *)
Definition pp := TS kP (TS kP (TB bI) gPoly) gPoly.
Definition pd := TS kP (TB bD) gPoly.
Definition pps := TS kP (TS kP (TB bI) gPs) gPoly.
Example ex_types : same_ok XM /\ promotes XM (t_add XM) /\ absorbs XM (t_mul XM) (t_imul XM) /\ absorbs_right (t_div XM) (t_idiv XM) /\ (forall t t', t_poly XM t = true -> t_poly XM t' = true -> t = t') /\
  (forall a b, t_add XM a b = t_add XM b a) /\ (forall a b c, match t_add XM a b with Some d => t_add XM d c | None => None end = match t_add XM b c with Some d => t_add XM a d | None => None end) /\
  good XM pp /\ good XM pd /\ good XM pps /\
  addsub XM (t_add XM) pp pd = Some (TS kP (TS kP (TB bD) gPoly) gPoly) /\ addsub_algo XM (t_add XM) pd pp = 1 /\ mul XM pd pp = Some (TS kP (TS kP (TB bD) gPoly) gPoly) /\
  div XM pp (TB bQ) = Some (TS kP (TS kP (TB bQ) gPoly) gPoly) /\ div XM pp pd = None /\ eqc XM pd pp = true /\ addsub XM (t_add XM) pp pps = None /\ eqc XM pp pps = false /\
  ctor XM pd pp = true /\ ctor XM pp pps = true /\ ctor_algo XM pd pp = 3 /\ in_place_algo XM (t_add XM) pd pp = 1.
Proof.
  split; [constructor; try (intros [] []; cbn; split; auto; discriminate); intros []; reflexivity|]. split; [intros a b c [= <-]; auto|].
  split; [intros [] [] c [= <-]; repeat split|]. split; [intros [] [] c [= <-]; repeat split|]. split; [intros [] []; auto; discriminate|]. split; [intros [] []; reflexivity|]. split; [intros [] [] []; reflexivity|]. repeat split.
Qed.

(** C78. [x += y] does not imply [x + y]: the conversions look at the keys only, not at the tags, of the levels below the first. *)
Theorem in_place_sum_refuted : ~ forall (M : tbl xb xk xg) (x y : ty xb xk xg), same_ok M -> promotes M (t_add M) -> good M x -> good M y -> in_place_algo M (t_add M) x y <> 0 -> addsub M (t_add M) x y <> None.
Proof.
  intros H. pose proof ex_types as (A & P & _). refine (H XM pps (TS kP (TB bI) gPoly) A P _ _ _ _); [repeat split|repeat split|discriminate|reflexivity].
Qed.
Print Assumptions in_place_sum_refuted.
