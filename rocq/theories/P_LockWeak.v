(** Property C66: with the memory orders of the guard, accesses within guards of the same flag are ordered by happens-before. *)
From Coq Require Import List Arith Bool Lia.
From Verif Require Import LockModel P_Lock LockWeak.
Import ListNotations.

(** ** Modification orders *)
Fixpoint adj (l : list msg) : Prop :=
  match l with a :: (b :: _) as l' => (m_val a = false -> m_rmw b = true) /\ adj l' | _ => True end.
Lemma adj_tail a l : adj (a :: l) -> adj l.
Proof. destruct l; cbn; [auto|]. intros [_ H]. exact H. Qed.
Lemma adj_app_r l1 l2 : adj (l1 ++ l2) -> adj l2.
Proof. induction l1 as [|a l1 IH]; [auto|]. intros H. apply IH. eapply adj_tail, H. Qed.
Lemma adj_insert l1 m n l2 : adj (l1 ++ m :: l2) -> m_rmw n = true -> m_val n = true -> adj (l1 ++ m :: n :: l2).
Proof.
  intros H R W. induction l1 as [|a l1 IH].
  - cbn [app] in *. destruct l2 as [|b l2]; cbn in *; [auto|]. destruct H as [_ H]. split; [auto|]. split; [congruence|exact H].
  - destruct l1 as [|a' l1]; cbn [app] in *; destruct H as [H1 H2]; (split; [exact H1|apply IH, H2]).
Qed.
Lemma adj_snoc l a n : adj (l ++ [a]) -> m_val a = true -> adj (l ++ [a] ++ [n]).
Proof.
  intros H W. induction l as [|b l IH]; cbn [app] in *; [split; [congruence|exact I]|]. destruct l as [|b' l]; cbn [app] in *; destruct H as [H1 H2]; (split; [exact H1|apply IH, H2]).
Qed.
Definition tas (m : msg) : Prop := m_val m = true /\ m_rmw m = true.

Section Weak.
Context {V : Type} (lock_of : var -> flag) (v0 : V).
Notation wreach := (wreach guard_orders lock_of v0).
Notation wstep := (wstep guard_orders lock_of v0).
Notation cnt s t f := (count_occ Nat.eq_dec (w_held s t) f).

(** All the accesses to the variables of f are in the set. *)
Definition all_known (s : wstate V) (f : flag) (known : list nat) : Prop := forall x a, lock_of x = f -> In a (w_acc s x) -> In (a_id a) known.
Definition flag_inv (s : wstate V) (f : flag) : Prop :=
  exists pre m chain, w_mo s f = pre ++ m :: chain /\ m_val m = false /\ Forall tas chain /\ adj (pre ++ m :: chain) /\
  match chain with
  | [] => (forall t, cnt s t f = 0) /\ all_known s f (m_rel m)
  | c :: _ => exists t, cnt s t f = 1 /\ (forall t', t' <> t -> cnt s t' f = 0) /\ In (m_id c) (w_known s t) /\ all_known s f (w_known s t)
  end.
(** Each access comes after all the earlier ones, and each read returns the last value. *)
Fixpoint acc_inv (acc : list (access V)) : Prop :=
  match acc with
  | [] => True
  | a :: acc' => (forall b, In b acc' -> In (a_id b) (a_known a)) /\ (a_write a = false -> a_val a = current v0 acc') /\ acc_inv acc'
  end.
Definition winv (s : wstate V) : Prop := (forall f, flag_inv s f) /\ forall x, acc_inv (w_acc s x).

Lemma may_read_current known acc v : acc_inv acc -> (forall a, In a acc -> In (a_id a) known) -> may_read v0 known acc v -> v = current v0 acc.
Proof.
  intros AI AK [(a & Ia & Wa & Va & H)|[-> H]].
  - assert (X : forall b, In b acc -> a_write b = true -> ~ In (a_id a) (a_known b)) by (intros b Ib Wb; apply H; auto). clear H AK.
    induction acc as [|b acc IH]; [contradiction|]. destruct AI as (K & _ & AI). cbn [current]. destruct Ia as [->|Ia]; [rewrite Wa; auto|].
    destruct (a_write b) eqn:Wb; [exfalso; apply (X b (or_introl eq_refl) Wb), K, Ia|]. apply IH; auto. intros c Ic. apply X. right. exact Ic.
  - assert (X : forall b, In b acc -> a_write b = false). { intros b Ib. destruct (a_write b) eqn:Wb; [|reflexivity]. exfalso. apply (H b Ib Wb), AK, Ib. }
    clear H AK AI. induction acc as [|b acc IH]; [reflexivity|]. cbn [current]. rewrite (X b (or_introl eq_refl)). apply IH. intros c Ic. apply X. right. exact Ic.
Qed.

(** Steps which do not touch the flag f and only add knowledge. *)
Lemma flag_inv_mono s s' f : w_mo s' f = w_mo s f -> (forall t, cnt s' t f = cnt s t f) -> (forall x, lock_of x = f -> w_acc s' x = w_acc s x) ->
  (forall t e, In e (w_known s t) -> In e (w_known s' t)) -> flag_inv s f -> flag_inv s' f.
Proof.
  intros M H A K (pre & m & chain & E & R & F & AD & C). exists pre, m, chain. split; [congruence|]. split; [exact R|]. split; [exact F|]. split; [exact AD|]. destruct chain as [|c chain].
  - destruct C as [C1 C2]. split; [intros t; rewrite H; apply C1|]. intros x a L I. rewrite (A x L) in I. eapply C2; eauto.
  - destruct C as (t & C1 & C2 & C3 & C4). exists t. rewrite H. split; [exact C1|]. split; [intros t' N; rewrite H; apply C2, N|]. split; [apply K, C3|]. intros x a L I. rewrite (A x L) in I. apply K. eapply C4; eauto.
Qed.

Lemma upd_known (kn : thread -> list nat) t l e t' : In e (kn t') -> (forall e, In e (kn t) -> In e l) -> In e (upd kn t l t').
Proof. intros I H. destruct (Nat.eq_dec t' t) as [->|N]; [rewrite upd_eq; apply H, I|rewrite upd_ne by exact N; exact I]. Qed.

Lemma holder s t f : winv s -> In f (w_held s t) -> all_known s f (w_known s t).
Proof.
  intros [FI _] I. destruct (FI f) as (pre & m & chain & _ & _ & _ & _ & C). apply (count_occ_In Nat.eq_dec) in I. destruct chain as [|c chain]; [destruct C as [C _]; specialize (C t); lia|].
  destruct C as (t' & _ & C & _ & K). destruct (Nat.eq_dec t t') as [->|N]; [exact K|]. specialize (C t N). lia.
Qed.

(** A non-atomic access by the holder. *)
Lemma access_inv s t x a : winv s -> In (lock_of x) (w_held s t) -> a_id a = w_next s -> a_known a = w_known s t -> (a_write a = false -> a_val a = current v0 (w_acc s x)) ->
  winv (WState (w_mo s) (upd (w_acc s) x (a :: w_acc s x)) (upd (w_known s) t (w_next s :: w_known s t)) (w_held s) (w_spin s) (S (w_next s))).
Proof.
  intros W I EI EK EV. pose proof (holder s t _ W I) as HK. destruct W as [FI AI]. split.
  - intros f. destruct (Nat.eq_dec (lock_of x) f) as [E|N].
    + destruct (FI f) as (pre & m & chain & Em & R & F & AD & C). exists pre, m, chain. cbn [w_mo]. split; [exact Em|]. split; [exact R|]. split; [exact F|]. split; [exact AD|].
      rewrite E in I. apply (count_occ_In Nat.eq_dec) in I. destruct chain as [|c chain]; [destruct C as [C _]; specialize (C t); lia|].
      destruct C as (t' & C1 & C2 & C3 & C4). destruct (Nat.eq_dec t t') as [->|N]; [|specialize (C2 t N); lia]. exists t'. cbn [w_held w_known]. split; [exact C1|]. split; [exact C2|]. rewrite upd_eq. split; [right; exact C3|].
      intros y b L J. cbn [w_acc] in J. destruct (Nat.eq_dec y x) as [->|Ny]; [rewrite upd_eq in J; destruct J as [<-|J]; [left; congruence|]|rewrite upd_ne in J by exact Ny]; right; eapply C4; eauto.
    + apply (flag_inv_mono s); auto.
      * intros y L. cbn [w_acc]. apply upd_ne. intros ->. contradiction.
      * intros t' e J. cbn [w_known]. apply upd_known; [exact J|]. intros. right. assumption.
  - intros y. cbn [w_acc]. destruct (Nat.eq_dec y x) as [->|N]; [|rewrite upd_ne by exact N; apply AI]. rewrite upd_eq. cbn [acc_inv]. split; [|split; [exact EV|apply AI]].
    intros b J. rewrite EK. eapply HK; [reflexivity|exact J].
Qed.

Lemma last_chain (pre : list msg) m chain l1 n : pre ++ m :: chain = l1 ++ [n] -> chain <> [] -> Forall tas chain -> m_val n = true.
Proof.
  intros E N F. destruct (exists_last N) as (c & k & ->). assert (n = k) as ->.
  { change (pre ++ m :: c ++ [k]) with (pre ++ (m :: c) ++ [k]) in E. rewrite app_assoc in E. apply app_inj_tail in E. symmetry. apply E. }
  apply Forall_app in F as [_ F]. inversion F as [|? ? [T _]]. exact T.
Qed.

Lemma winv_step s s' : winv s -> wstep s s' -> winv s'.
Proof.
  intros W H. destruct H as [s t f SP|s t f l1 m l2 SP EM FR UK|s t f fs l1 l2 SP HE EM FR UK|s t x v SP HE MR|s t x v SP HE].
  - destruct W as [FI AI]. split; [|exact AI]. intros g. apply (flag_inv_mono s); auto.
  - destruct W as [FI AI]. split; [|exact AI]. intros g. destruct (Nat.eq_dec g f) as [->|N].
    2: { apply (flag_inv_mono s); auto.
      - cbn [w_mo]. apply upd_ne, N.
      - intros t'. cbn [w_held]. destruct (m_val m); [reflexivity|]. destruct (Nat.eq_dec t' t) as [->|Nt]; [rewrite upd_eq; cbn; destruct (Nat.eq_dec f g); [congruence|reflexivity]|rewrite upd_ne by exact Nt; reflexivity].
      - intros t' e J. cbn [w_known]. apply upd_known; [exact J|]. intros e' J'. right. right. apply in_or_app. right. exact J'. }
    destruct (FI f) as (pre & m0 & chain & Em & R & F & AD & C). rewrite EM in Em. set (nm := Msg (w_next s) true true (m_rel m)). unfold flag_inv. cbn [w_mo w_held w_known]. rewrite upd_eq.
    assert (AD' : adj (l1 ++ m :: nm :: l2)) by (apply adj_insert; [rewrite Em; exact AD|reflexivity|reflexivity]).
    destruct (m_val m) eqn:Vm.
    + (* a test_and_set which fails *)
      assert (KM : forall t' e, In e (w_known s t') -> In e (upd (w_known s) t (w_next s :: m_id m :: (if tas_acquires guard_orders then m_rel m else []) ++ w_known s t) t')).
      { intros t' e J. apply upd_known; [exact J|]. intros e' J'. right. right. apply in_or_app. right. exact J'. }
      assert (SH : exists pre' chain', l1 ++ m :: nm :: l2 = pre' ++ m0 :: chain' /\ Forall tas chain' /\ (chain = [] -> chain' = []) /\ forall c k, chain = c :: k -> exists k', chain' = c :: k').
      { destruct (app_eq_app _ _ _ _ Em) as (l & [[E1 E2]|[E1 E2]]).
        - (* l1 = pre ++ l *)
          destruct l as [|a l].
          + cbn in E2. injection E2 as <- _. congruence.
          + cbn in E2. injection E2 as <- E2. exists pre, (l ++ m :: nm :: l2). subst l1 chain. rewrite <- app_assoc. split; [reflexivity|]. apply Forall_app in F as [F1 F2]. inversion F2 as [|? ? T F3]; subst.
            split; [apply Forall_app; split; [exact F1|]; constructor; [exact T|]; constructor; [split; reflexivity|exact F3]|]. split; [intros X; destruct l; discriminate|].
            intros c k X. destruct l as [|b l]; cbn in *; injection X as <- <-; eauto.
        - destruct l as [|a l]; cbn in E2; injection E2 as E2 E3; [congruence|]. subst a l2 pre. exists (l1 ++ m :: nm :: l), chain. rewrite <- app_assoc. cbn [app]. split; [reflexivity|]. split; [exact F|]. split; [auto|eauto]. }
      destruct SH as (pre' & chain' & SE & SF & S0 & S1). exists pre', m0, chain'. split; [exact SE|]. split; [exact R|]. split; [exact SF|]. split; [rewrite <- SE; exact AD'|].
      destruct chain as [|c k].
      * rewrite (S0 eq_refl). exact C.
      * destruct (S1 c k eq_refl) as (k' & ->). destruct C as (t' & C1 & C2 & C3 & C4). exists t'. split; [exact C1|]. split; [exact C2|]. split; [apply KM, C3|]. intros x a L J. apply KM. eapply C4; eauto.
    + (* the guard is constructed *)
      assert (l2 = []) as ->. { destruct l2 as [|b l2]; [reflexivity|]. exfalso. assert (X : adj (m :: b :: l2)) by (rewrite <- Em in AD; eapply adj_app_r, AD). destruct X as [X _]. specialize (X Vm). cbn in FR. congruence. }
      assert (chain = []) as ->. { destruct chain as [|c k]; [reflexivity|]. assert (X : m_val m = true) by (eapply last_chain; [symmetry; exact Em|discriminate|exact F]). congruence. }
      apply app_inj_tail in Em as [-> ->]. destruct C as [C1 C2]. exists pre, m0, [nm]. split; [reflexivity|]. split; [exact R|]. split; [repeat constructor|]. split; [exact AD'|].
      exists t. rewrite !upd_eq. cbn [count_occ]. destruct (Nat.eq_dec f f) as [_|]; [|contradiction]. rewrite C1. split; [reflexivity|]. split; [intros t' N; rewrite upd_ne by exact N; apply C1|]. split; [left; reflexivity|].
      intros x a L J. cbn [w_acc] in J. right. right. apply in_or_app. left. cbn. eapply C2; eauto.
  - destruct W as [FI AI]. split; [|exact AI]. intros g. destruct (Nat.eq_dec g f) as [->|N].
    2: { apply (flag_inv_mono s); auto.
      - cbn [w_mo]. apply upd_ne, N.
      - intros t'. cbn [w_held]. destruct (Nat.eq_dec t' t) as [->|Nt]; [rewrite upd_eq, HE; cbn; destruct (Nat.eq_dec f g); [congruence|reflexivity]|rewrite upd_ne by exact Nt; reflexivity].
      - intros t' e J. cbn [w_known]. apply upd_known; [exact J|]. intros e' J'. right. exact J'. }
    destruct (FI f) as (pre & m0 & chain & Em & R & F & AD & C). rewrite EM in Em. unfold flag_inv. cbn [w_mo w_held w_known]. rewrite upd_eq.
    destruct chain as [|c k]; [destruct C as [C _]; specialize (C t); rewrite HE in C; cbn in C; destruct (Nat.eq_dec f f); [lia|contradiction]|].
    destruct C as (t' & C1 & C2 & C3 & C4). destruct (Nat.eq_dec t t') as [<-|Nt]; [|specialize (C2 t Nt); rewrite HE in C2; cbn in C2; destruct (Nat.eq_dec f f); [lia|contradiction]].
    assert (l2 = []) as ->.
    { destruct (app_eq_app _ _ _ _ Em) as (l & [[E1 E2]|[E1 E2]]).
      - destruct l as [|a [|a' l]]; cbn in E2.
        + subst l2. exfalso. apply (UK c); [right; left; reflexivity|exact C3].
        + injection E2 as <- <-. exfalso. apply (UK c); [left; reflexivity|exact C3].
        + injection E2 as <- <- ->. destruct l2 as [|b l2]; [reflexivity|]. inversion F as [|? ? _ F']; subst. apply Forall_app in F' as [_ F']. inversion F' as [|? ? [_ T]]; subst. cbn in FR. congruence.
      - exfalso. apply (UK c); [|exact C3]. rewrite E2. apply in_or_app. right. right. left. reflexivity. }
    rewrite app_nil_r in Em. eexists l1, _, []. split; [reflexivity|]. split; [reflexivity|]. split; [constructor|]. split.
    + subst l1. destruct (exists_last (l := m0 :: c :: k)) as (l & n & El); [discriminate|]. rewrite El in AD |- *.
      rewrite <- !app_assoc, app_assoc. apply adj_snoc; [rewrite <- app_assoc; exact AD|].
      eapply (last_chain pre m0 (c :: k) (pre ++ l)); [rewrite El, app_assoc; reflexivity|discriminate|exact F].
    + split.
      * intros t'. destruct (Nat.eq_dec t' t) as [->|Nt]; [rewrite upd_eq|rewrite upd_ne by exact Nt; apply C2, Nt]. rewrite HE in C1. cbn in C1. destruct (Nat.eq_dec f f); [lia|contradiction].
      * intros x a L J. cbn. right. eapply C4; eauto.
  - apply access_inv; auto. cbn. intros _. apply (may_read_current (w_known s t)); auto; [apply W|]. intros a J. eapply (holder s t _ W HE); eauto.
  - apply access_inv; auto. discriminate.
Qed.

Lemma winv_reach s : wreach s -> winv s.
Proof.
  induction 1 as [|s s' R IH H]; [|eapply winv_step; eauto]. split; [|intros x; exact I]. intros f. exists [], (Msg 0 false false []), []. cbn. split; [reflexivity|]. split; [reflexivity|]. split; [constructor|]. split; [exact I|]. split; [reflexivity|]. intros x a _ [].
Qed.
(** C66. Two guards of the same flag never exist at once, whatever stale values the memory orders let the threads read. *)
Theorem weak_mutual_exclusion : forall s, wreach s -> forall t t' f, In f (w_held s t) -> In f (w_held s t') -> t = t' /\ count_occ Nat.eq_dec (w_held s t) f = 1.
Proof.
  intros s R t t' f I I'. destruct (winv_reach s R) as [FI _]. destruct (FI f) as (pre & m & chain & _ & _ & _ & _ & C). apply (count_occ_In Nat.eq_dec) in I, I'.
  destruct chain as [|c k]; [destruct C as [C _]; specialize (C t); lia|]. destruct C as (u & C1 & C2 & _).
  destruct (Nat.eq_dec t u) as [->|N]; [|specialize (C2 t N); lia]. destruct (Nat.eq_dec t' u) as [->|N']; [|specialize (C2 t' N'); lia]. auto.
Qed.
(** C66. There is no data race on a variable which is only accessed within guards of its flag. *)
Theorem guarded_no_race : forall s, wreach s -> ~ race lock_of s.
Proof. intros s R (t & x & a & wr & I & J & _ & N). apply N. eapply (holder s t _ (winv_reach s R) I); eauto. Qed.
(** C66. Any access to a variable happens after all the earlier ones, and a read returns the value last written. *)
Theorem guarded_sequential : forall s, wreach s -> forall x later a earlier, w_acc s x = later ++ a :: earlier ->
  (forall b, In b earlier -> In (a_id b) (a_known a)) /\ (a_write a = false -> a_val a = current v0 earlier).
Proof.
  intros s R x later a earlier E. destruct (winv_reach s R) as [_ AI]. specialize (AI x). rewrite E in AI. clear E. induction later as [|b later IH]; [destruct AI as (A & B & _); auto|]. apply IH, AI.
Qed.
(** C66. A guard can be constructed when no guard of its flag exists: the attempt which reads the last message of the flag succeeds. *)
Theorem weak_released_acquired : forall s, wreach s -> forall t f, w_spin s t = Some f -> (forall t', ~ In f (w_held s t')) ->
  exists s', wstep s s' /\ w_held s' t = f :: w_held s t /\ w_spin s' t = None.
Proof.
  intros s R t f SP NH. destruct (winv_reach s R) as [FI _]. destruct (FI f) as (pre & m & chain & E & Vm & F & AD & C).
  destruct chain as [|c k]; [|exfalso; destruct C as (u & C1 & _); apply (NH u), (count_occ_In Nat.eq_dec); lia].
  eexists. split; [eapply (ws_tas guard_orders lock_of v0 s t f pre m []); auto; [exact I|intros n []]|]. rewrite Vm. cbn [w_held w_spin]. rewrite !upd_eq. auto.
Qed.
End Weak.
Print Assumptions weak_mutual_exclusion.
Print Assumptions guarded_no_race.
Print Assumptions guarded_sequential.
Print Assumptions weak_released_acquired.

(** * Both memory orders are needed: with a relaxed clear, or a relaxed test_and_set, a race is reachable. *)
Definition lk : var -> flag := fun x => x.
(** Thread 0 writes variable 0 within a guard; then thread 1 constructs a guard. *)
Theorem orders_needed : forall O, O = Orders true false \/ O = Orders false true -> exists s : wstate nat, wreach O lk 0 s /\ race lk s /\ w_held s 1 = [0] /\ w_held s 0 = [].
Proof.
  intros O HO.
  set (s0 := weak_init (V := nat)).
  assert (R1 : wreach O lk 0 (WState (w_mo s0) (w_acc s0) (w_known s0) (w_held s0) (upd (w_spin s0) 0 (Some 0)) (w_next s0))) by (eapply wreach_step; [apply wreach_init|apply ws_begin; reflexivity]).
  match type of R1 with wreach _ _ _ ?s => set (s1 := s) in * end.
  pose proof (ws_tas O lk 0 s1 0 0 [] (Msg 0 false false []) [] eq_refl eq_refl I (fun m (H : In m []) => match H with end)) as S2. apply (wreach_step _ _ _ _ _ R1) in S2. clear R1.
  match type of S2 with wreach _ _ _ ?s => set (s2 := s) in * end.
  pose proof (ws_write O lk 0 s2 0 0 7 eq_refl (or_introl eq_refl)) as S3. apply (wreach_step _ _ _ _ _ S2) in S3. clear S2.
  match type of S3 with wreach _ _ _ ?s => set (s3 := s) in * end.
  pose proof (ws_clear O lk 0 s3 0 0 [] [Msg 0 false false []; Msg 1 true true []] [] eq_refl eq_refl eq_refl I (fun m (H : In m []) => match H with end)) as S4. apply (wreach_step _ _ _ _ _ S3) in S4. clear S3.
  match type of S4 with wreach _ _ _ ?s => set (s4 := s) in * end.
  pose proof (ws_begin O lk 0 s4 1 0 eq_refl) as S5. apply (wreach_step _ _ _ _ _ S4) in S5. clear S4.
  match type of S5 with wreach _ _ _ ?s => set (s5 := s) in * end.
  pose proof (ws_tas O lk 0 s5 1 0 [Msg 0 false false []; Msg 1 true true []] (Msg 3 false false (if clear_releases O then 3 :: w_known s3 0 else [])) [] eq_refl eq_refl I (fun m (H : In m []) => match H with end)) as S6.
  apply (wreach_step _ _ _ _ _ S5) in S6. clear S5. eexists. split; [exact S6|]. split; [|split; reflexivity].
  exists 1, 0. eexists. exists true. split; [left; reflexivity|]. split; [left; reflexivity|]. split; [left; reflexivity|].
  destruct HO as [->| ->]; vm_compute; intuition discriminate.
Qed.
Print Assumptions orders_needed.

(** Not vacuous: with the orders of the guard, thread 1 enters after thread 0, may fail reading a stale value, and reads 7. *)
Example ex_weak : exists (s : wstate nat) a, wreach guard_orders lk 0 s /\ w_acc s 0 = a :: [Access 2 true 7 [1; 0; 0]] /\ a_write a = false /\ a_val a = 7 /\ In 2 (a_known a) /\
  map m_val (w_mo s 0) = [false; true; true; false; true].
Proof.
  set (s0 := weak_init (V := nat)). set (O := guard_orders).
  assert (R1 : wreach O lk 0 (WState (w_mo s0) (w_acc s0) (w_known s0) (w_held s0) (upd (w_spin s0) 0 (Some 0)) (w_next s0))) by (eapply wreach_step; [apply wreach_init|apply ws_begin; reflexivity]).
  match type of R1 with wreach _ _ _ ?s => set (s1 := s) in * end.
  pose proof (ws_tas O lk 0 s1 0 0 [] (Msg 0 false false []) [] eq_refl eq_refl I (fun m (H : In m []) => match H with end)) as S2. apply (wreach_step _ _ _ _ _ R1) in S2. clear R1.
  match type of S2 with wreach _ _ _ ?s => set (s2 := s) in * end.
  pose proof (ws_write O lk 0 s2 0 0 7 eq_refl (or_introl eq_refl)) as S3. apply (wreach_step _ _ _ _ _ S2) in S3. clear S2.
  match type of S3 with wreach _ _ _ ?s => set (s3 := s) in * end.
  pose proof (ws_clear O lk 0 s3 0 0 [] [Msg 0 false false []; Msg 1 true true []] [] eq_refl eq_refl eq_refl I (fun m (H : In m []) => match H with end)) as S4. apply (wreach_step _ _ _ _ _ S3) in S4. clear S3.
  match type of S4 with wreach _ _ _ ?s => set (s4 := s) in * end.
  pose proof (ws_begin O lk 0 s4 1 0 eq_refl) as S5. apply (wreach_step _ _ _ _ _ S4) in S5. clear S4.
  match type of S5 with wreach _ _ _ ?s => set (s5 := s) in * end.
  set (m3 := Msg 3 false false (3 :: w_known s3 0)).
  assert (UK : unknown (w_known s5 1) [m3]) by (intros m [<-|[]]; vm_compute; intuition discriminate).
  pose proof (ws_tas O lk 0 s5 1 0 [Msg 0 false false []] (Msg 1 true true []) [m3] eq_refl eq_refl eq_refl UK) as S6. apply (wreach_step _ _ _ _ _ S5) in S6. clear S5 UK.
  match type of S6 with wreach _ _ _ ?s => set (s6 := s) in * end.
  pose proof (ws_tas O lk 0 s6 1 0 [Msg 0 false false []; Msg 1 true true []; Msg 4 true true []] m3 [] eq_refl eq_refl I (fun m (H : In m []) => match H with end)) as S7. apply (wreach_step _ _ _ _ _ S6) in S7. clear S6.
  match type of S7 with wreach _ _ _ ?s => set (s7 := s) in * end.
  assert (MR : may_read 0 (w_known s7 1) (w_acc s7 0) 7).
  { left. eexists. split; [left; reflexivity|]. split; [reflexivity|]. split; [reflexivity|]. intros b [<-|[]] _ _. vm_compute. intuition discriminate. }
  pose proof (ws_read O lk 0 s7 1 0 7 eq_refl (or_introl eq_refl) MR) as S8. apply (wreach_step _ _ _ _ _ S7) in S8. clear S7.
  do 2 eexists. split; [exact S8|]. split; [reflexivity|]. split; [reflexivity|]. split; [reflexivity|]. split; [vm_compute; tauto|reflexivity].
Qed.
