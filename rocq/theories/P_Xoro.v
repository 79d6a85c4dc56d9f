(** Property C68: the pseudo random number generator.  A state is two 64-bit values. *)
From Coq Require Import ZArith Znumtheory List Bool Lia Btauto.
From Verif Require Import XoroModel.
Import ListNotations.
Open Scope Z_scope.

Definition word (z : Z) : Prop := 0 <= z < 2 ^ 64.
Definition state_ok (st : xstate) : Prop := word (fst st) /\ word (snd st).

(** Words are equal if their bits are. *)
Lemma word_bits z i : word z -> 64 <= i -> Z.testbit z i = false.
Proof.
  intros [P L] I. destruct (Z.eq_dec z 0) as [->|N]; [apply Z.testbit_0_l|]. apply Z.bits_above_log2; [exact P|]. assert (Z.log2 z < 64) by (apply Z.log2_lt_pow2; lia). lia.
Qed.
Lemma word_ubits z : word (ubits 64 z).
Proof. apply Z.mod_pos_bound. reflexivity. Qed.
Lemma word_of_bits z : (forall i, 64 <= i -> Z.testbit z i = false) -> word z.
Proof.
  intros H. assert (E : z = ubits 64 z).
  { unfold ubits. apply Z.bits_inj'. intros i I. destruct (Z.lt_ge_cases i 64); [rewrite Z.mod_pow2_bits_low; auto|rewrite Z.mod_pow2_bits_high by lia; auto]. }
  rewrite E. apply word_ubits.
Qed.
Lemma ubits_bit z i : 0 <= i -> Z.testbit (ubits 64 z) i = ((i <? 64) && Z.testbit z i)%bool.
Proof. intros I. unfold ubits. destruct (Z.ltb_spec i 64); [rewrite Z.mod_pow2_bits_low by auto|rewrite Z.mod_pow2_bits_high by lia]; reflexivity. Qed.
Lemma word_lxor a b : word a -> word b -> word (Z.lxor a b).
Proof. intros A B. apply word_of_bits. intros i I. rewrite Z.lxor_spec, !word_bits by auto. reflexivity. Qed.

(** Bit i of a rotation. *)
Lemma rotl_bit x k i : word x -> 0 < k < 64 -> 0 <= i -> Z.testbit (rotl x k) i = ((i <? 64) && Z.testbit x ((i - k) mod 64))%bool.
Proof.
  intros W K I. unfold rotl. rewrite Z.lor_spec, ubits_bit, Z.shiftr_spec, Z.shiftl_spec by lia.
  destruct (Z.ltb_spec i 64) as [L|L]; cbn [andb orb]; [|apply word_bits; [exact W|lia]].
  destruct (Z.lt_ge_cases i k).
  - rewrite (Z.testbit_neg_r x (i - k)) by lia. cbn [orb]. f_equal. replace (i - k) with (i + (64 - k) + (-1) * 64) by lia. rewrite Z.mod_add by lia. symmetry. apply Z.mod_small. lia.
  - rewrite (word_bits x (i + (64 - k))) by (auto; lia). rewrite orb_false_r. f_equal. symmetry. apply Z.mod_small. lia.
Qed.
Lemma word_rotl x k : word x -> 0 < k < 64 -> word (rotl x k).
Proof. intros W K. apply word_of_bits. intros i I. rewrite rotl_bit by (auto; lia). destruct (Z.ltb_spec i 64); [lia|reflexivity]. Qed.
Lemma rotl_rotl x k : word x -> 0 < k < 64 -> rotl (rotl x k) (64 - k) = x.
Proof.
  intros W K. apply Z.bits_inj'. intros i I. assert (WR := word_rotl x k W K). rewrite rotl_bit by (auto; lia). destruct (Z.ltb_spec i 64) as [L|L]; cbn [andb]; [|symmetry; apply word_bits; auto].
  rewrite rotl_bit; auto; [|apply Z.mod_pos_bound; lia].
  assert (B : 0 <= (i - (64 - k)) mod 64 < 64) by (apply Z.mod_pos_bound; lia). destruct (Z.ltb_spec ((i - (64 - k)) mod 64) 64); [|lia]. cbn [andb]. f_equal.
  rewrite Zminus_mod_idemp_l. replace (i - (64 - k) - k) with (i + (-1) * 64) by lia. rewrite Z.mod_add by lia. apply Z.mod_small. lia.
Qed.
Lemma rotl_rotl' x k : word x -> 0 < k < 64 -> rotl (rotl x (64 - k)) k = x.
Proof. intros W K. replace k with (64 - (64 - k)) at 2 by lia. apply rotl_rotl; [exact W|lia]. Qed.

(** C68. next gives a 64-bit value and a state. *)
Theorem next_in_range : forall st, state_ok st -> word (fst (xnext st)) /\ state_ok (snd (xnext st)).
Proof.
  intros [s0 s1] [W0 W1]. cbn [fst snd xnext] in *. split; [apply word_ubits|]. split; cbn [fst snd].
  - repeat apply word_lxor; auto; [apply word_rotl; [auto|lia]|apply word_ubits].
  - apply word_rotl; [apply word_lxor; auto|lia].
Qed.

Lemma lxor_cancel a b c : Z.lxor (Z.lxor (Z.lxor a b) c) (Z.lxor b c) = a.
Proof. apply Z.bits_inj'. intros i _. rewrite !Z.lxor_spec. btauto. Qed.
Lemma lxor_cancel2 a b : Z.lxor (Z.lxor a b) b = a.
Proof. rewrite Z.lxor_assoc, Z.lxor_nilpotent, Z.lxor_0_r. reflexivity. Qed.

(** The state before. *)
Definition xprev (st : xstate) : xstate :=
  let s1 := rotl (snd st) 27 in
  let s0 := rotl (Z.lxor (fst st) (Z.lxor s1 (ubits 64 (Z.shiftl s1 16)))) 40 in
  (s0, Z.lxor s1 s0).
Lemma prev_ok st : state_ok st -> state_ok (xprev st).
Proof.
  intros [W0 W1]. unfold xprev. cbv zeta. assert (A : word (rotl (snd st) 27)) by (apply word_rotl; [auto|lia]).
  assert (B : word (rotl (Z.lxor (fst st) (Z.lxor (rotl (snd st) 27) (ubits 64 (Z.shiftl (rotl (snd st) 27) 16)))) 40)) by (apply word_rotl; [|lia]; repeat apply word_lxor; auto; apply word_ubits).
  split; cbn [fst snd]; [exact B|apply word_lxor; auto].
Qed.
Lemma prev_next st : state_ok st -> xprev (snd (xnext st)) = st.
Proof.
  intros [W0 W1]. destruct st as [s0 s1]. unfold xprev, xnext. cbn [fst snd] in *.
  pose proof (rotl_rotl (Z.lxor s1 s0) 37 (word_lxor _ _ W1 W0) ltac:(lia)) as H. change (64 - 37) with 27 in H. rewrite H.
  rewrite lxor_cancel. pose proof (rotl_rotl s0 24 W0 ltac:(lia)) as H'. change (64 - 24) with 40 in H'. rewrite H', lxor_cancel2. reflexivity.
Qed.
Lemma next_prev st : state_ok st -> snd (xnext (xprev st)) = st.
Proof.
  intros W. pose proof W as [W0 W1]. destruct st as [t0 t1]. unfold xprev, xnext. cbn [fst snd] in *.
  set (s1 := rotl t1 27). assert (A : word s1) by (apply word_rotl; [auto|lia]). set (s0 := rotl _ 40).
  rewrite lxor_cancel2. pose proof (rotl_rotl' (Z.lxor t0 (Z.lxor s1 (ubits 64 (Z.shiftl s1 16)))) 24) as H. change (64 - 24) with 40 in H. fold s0 in H.
  rewrite H; [|repeat apply word_lxor; auto; apply word_ubits|lia]. 
  pose proof (rotl_rotl' t1 37 W1 ltac:(lia)) as H'. change (64 - 37) with 27 in H'. fold s1 in H'. rewrite H'. f_equal.
  rewrite Z.lxor_assoc. apply lxor_cancel2.
Qed.

(** C68. next permutes the states. *)
Theorem next_bijective : (forall st st', state_ok st -> state_ok st' -> snd (xnext st) = snd (xnext st') -> st = st') /\
  (forall st', state_ok st' -> exists st, state_ok st /\ snd (xnext st) = st').
Proof.
  split.
  - intros st st' W W' E. rewrite <- (prev_next st W), <- (prev_next st' W'), E. reflexivity.
  - intros st' W. exists (xprev st'). split; [apply prev_ok; exact W|apply next_prev; exact W].
Qed.

(** C68. Only the zero state leads to the zero state: a generator with a nonzero seed never gets stuck. *)
Theorem random_never_stuck : forall st n, state_ok st -> (xiter n st = (0, 0) <-> st = (0, 0)).
Proof.
  intros st n. revert st. induction n as [|n IH]; intros st W; [reflexivity|]. cbn [xiter]. rewrite IH by (apply next_in_range; exact W).
  split; [|intros ->; reflexivity]. intros E. rewrite <- (prev_next st W), E. reflexivity.
Qed.

(** Iterations. *)
Lemma xiter_ok n : forall st, state_ok st -> state_ok (xiter n st).
Proof. induction n as [|n IH]; intros st W; [exact W|]. cbn [xiter]. apply IH, next_in_range, W. Qed.
Lemma xiter_add n m : forall st, xiter (n + m) st = xiter m (xiter n st).
Proof. induction n as [|n IH]; intros st; [reflexivity|]. cbn [Nat.add xiter]. apply IH. Qed.
Lemma xiter_inj n : forall st st', state_ok st -> state_ok st' -> xiter n st = xiter n st' -> st = st'.
Proof.
  induction n as [|n IH]; intros st st' W W' E; [exact E|]. cbn [xiter] in E. apply IH in E; [|apply next_in_range, W|apply next_in_range, W']. apply next_bijective; auto.
Qed.

(** C68. Numbers of an integral type of any width: random<Int> is in the range of the type; up to 64 bits, for a given first state word,
    every value is drawn from the second words that agree with one word in as many bits, thus from equally many states; 128-bit numbers are two consecutive values, the first in the high half. *)
Definition int_range (signed : bool) (bits z : Z) : Prop := if signed then - 2 ^ (bits - 1) <= z < 2 ^ (bits - 1) else 0 <= z < 2 ^ bits.
Lemma ubits_range bits z : 0 < bits -> 0 <= ubits bits z < 2 ^ bits.
Proof. intros B. apply Z.mod_pos_bound. apply Z.pow_pos_nonneg; lia. Qed.
Lemma chunks_range bits : 0 < bits -> forall n u st, 0 <= u < 2 ^ bits -> 0 <= fst (xchunks bits n u st) < 2 ^ bits.
Proof. intros B. induction n as [|n IH]; intros u st U; [exact U|]. cbn [xchunks]. destruct (xnext st) as [v st']. apply IH. apply ubits_range. exact B. Qed.
Theorem random_in_range : forall signed bits st, 0 < bits -> int_range signed bits (fst (xrandom signed bits st)).
Proof.
  intros signed bits st B. unfold xrandom. destruct (xnext st) as [v st']. pose proof (chunks_range bits B (if 64 <? bits then Z.to_nat ((bits - 64 + 63) / 64) else 0) (ubits bits v) st' (ubits_range bits v B)) as R.
  destruct (xchunks bits _ _ st') as [u st'']. cbn [fst] in *. assert (P : 2 ^ bits = 2 * 2 ^ (bits - 1)) by (rewrite <- Z.pow_succ_r by lia; f_equal; lia).
  unfold int_range. destruct signed; cbn [andb]; [|exact R]. destruct (Z.leb_spec (2 ^ (bits - 1)) u); lia.
Qed.
Theorem random_64 : forall (signed : bool) bits s0 z, 0 < bits <= 64 -> word s0 -> int_range signed bits z -> exists s1, word s1 /\ fst (xrandom signed bits (s0, s1)) = z /\
  forall s1', word s1' -> (fst (xrandom signed bits (s0, s1')) = z <-> ubits bits s1' = ubits bits s1).
Proof.
  intros signed bits s0 z B W R.
  assert (P : 2 ^ bits = 2 * 2 ^ (bits - 1)) by (rewrite <- Z.pow_succ_r by lia; f_equal; lia).
  assert (P64 : 2 ^ 64 = 2 ^ (64 - bits) * 2 ^ bits) by (rewrite <- Z.pow_add_r by lia; f_equal; lia). assert (PB : 0 < 2 ^ bits) by (apply Z.pow_pos_nonneg; lia).
  assert (V : forall s1, fst (xrandom signed bits (s0, s1)) = let u := ubits bits (s0 + s1) in if (signed && (2 ^ (bits - 1) <=? u))%bool then u - 2 ^ bits else u).
  { intros s1. unfold xrandom, xnext. cbn [fst snd]. destruct (Z.ltb_spec 64 bits); [lia|]. cbn [xchunks fst]. cbv zeta. replace (ubits bits (ubits 64 (s0 + s1))) with (ubits bits (s0 + s1)); [reflexivity|].
    unfold ubits. rewrite P64. rewrite Z.mul_comm. rewrite <- Zmod_div_mod; [reflexivity|lia|apply Z.mul_pos_pos; [lia|apply Z.pow_pos_nonneg; lia]|apply Z.divide_factor_l]. }
  assert (U : forall u, 0 <= u < 2 ^ bits -> ((if (signed && (2 ^ (bits - 1) <=? u))%bool then u - 2 ^ bits else u) = z <-> u = ubits bits z)).
  { intros u Hu. unfold ubits, int_range in *. destruct signed; cbn [andb].
    - destruct (Z.leb_spec (2 ^ (bits - 1)) u), (Z.lt_ge_cases z 0).
      + replace z with (z + 2 ^ bits + (-1) * 2 ^ bits) at 2 by lia. rewrite Z.mod_add, Z.mod_small by lia. lia.
      + rewrite Z.mod_small by lia. lia.
      + replace z with (z + 2 ^ bits + (-1) * 2 ^ bits) at 2 by lia. rewrite Z.mod_add, Z.mod_small by lia. lia.
      + rewrite Z.mod_small by lia. lia.
    - rewrite Z.mod_small by lia. lia. }
  exists (ubits 64 (z - s0)). split; [apply word_ubits|].
  assert (X : ubits bits (ubits 64 (z - s0)) = ubits bits (z - s0)).
  { unfold ubits. rewrite P64, Z.mul_comm, <- Zmod_div_mod; [reflexivity|lia|apply Z.mul_pos_pos; [lia|apply Z.pow_pos_nonneg; lia]|apply Z.divide_factor_l]. }
  assert (G : forall s, fst (xrandom signed bits (s0, s)) = z <-> ubits bits s = ubits bits (z - s0)).
  { intros s. rewrite V. cbv zeta. rewrite U by (apply ubits_range; lia). unfold ubits. split; intros H.
    - replace s with (s0 + s - s0) by lia. rewrite Zminus_mod, H, <- Zminus_mod. reflexivity.
    - rewrite <- Zplus_mod_idemp_r, H, Zplus_mod_idemp_r. f_equal. lia. }
  split; [apply G; exact X|]. intros s1' W'. rewrite G, X. reflexivity.
Qed.
Theorem random_128 : forall st, state_ok st -> fst (xrandom false 128 st) = fst (xnext st) * 2 ^ 64 + fst (xnext (snd (xnext st))).
Proof.
  intros st W. unfold xrandom. pose proof (next_in_range st W) as [R1 W1]. destruct (xnext st) as [v st']. cbn [fst snd] in *. pose proof (next_in_range st' W1) as [R2 _].
  change (if 64 <? 128 then Z.to_nat ((128 - 64 + 63) / 64) else 0%nat) with 1%nat. cbn [xchunks]. destruct (xnext st') as [v' st'']. cbn [fst snd andb] in *.
  unfold ubits. unfold word in *. rewrite Z.shiftl_mul_pow2 by lia. rewrite !(Z.mod_small v), !(Z.mod_small v'), (Z.mod_small (v * 2 ^ 64)) by lia. apply Z.mod_small. lia.
Qed.

(** C68. The generators of the estimates have a nonzero state: for every trial (an unsigned int) and every size of the operands of less than 2^50 terms. *)
Theorem seeds_nonzero : (forall i, 0 <= i < 2 ^ 32 -> state_ok (seed_trial i) /\ seed_trial i <> (0, 0)) /\
  (forall n1 n2, 0 <= n1 < 2 ^ 50 -> state_ok (seed_size n1 n2) /\ seed_size n1 n2 <> (0, 0)).
Proof.
  split.
  - intros i I. split; [split; apply word_ubits|]. unfold seed_trial, ubits. rewrite (Z.mod_small (i + 14295768699618639914)) by lia. intros H. apply (f_equal fst) in H. cbn [fst] in H. lia.
  - intros n1 n2 N. split; [split; apply word_ubits|]. unfold seed_size, ubits. rewrite (Z.mod_small (18379758338774109289 + n1)) by lia. intros H. apply (f_equal fst) in H. cbn [fst] in H. lia.
Qed.
(** Different trials draw different sequences of states. *)
Theorem trials_differ : forall i j, 0 <= i < 2 ^ 32 -> 0 <= j < 2 ^ 32 -> i <> j -> forall n, xiter n (seed_trial i) <> xiter n (seed_trial j).
Proof.
  intros i j I J N n E. apply xiter_inj in E; [|apply seeds_nonzero; auto|apply seeds_nonzero; auto]. unfold seed_trial, ubits in E.
  rewrite (Z.mod_small (i + 14295768699618639914)), (Z.mod_small (j + 14295768699618639914)) in E by lia. apply (f_equal fst) in E. cbn [fst] in E. lia.
Qed.

(** * Non-vacuity *)
Example ex_xoro : state_ok (seed_trial 3) /\ fst (xrandom true 8 (seed_trial 3)) = -8 /\ fst (xnext (1, 2)) = 3 /\ snd (xnext (1, 2)) = (16973827, 412316860416).
Proof. split; [apply seeds_nonzero; lia|]. split; [vm_compute; reflexivity|]. split; vm_compute; reflexivity. Qed.

Print Assumptions next_in_range.
Print Assumptions next_bijective.
Print Assumptions random_never_stuck.
Print Assumptions random_in_range.
Print Assumptions random_64.
Print Assumptions random_128.
Print Assumptions seeds_nonzero.
Print Assumptions trials_differ.
