(** Property C54: the spin lock gives mutual exclusion. *)
From Coq Require Import List Arith Bool Lia Permutation.
From Verif Require Import LockModel.
Import ListNotations.

Lemma upd_eq {A} (f : nat -> A) i a : upd f i a i = a.
Proof. unfold upd. rewrite Nat.eqb_refl. reflexivity. Qed.
Lemma upd_ne {A} (f : nat -> A) i a j : j <> i -> upd f i a j = f j.
Proof. unfold upd. intros N. apply Nat.eqb_neq in N. rewrite N. reflexivity. Qed.

(** A flag is set if and only if some guard holds it; no flag is held by two guards. *)
Definition linv (s : lstate) : Prop :=
  (forall f, l_flags s f = true <-> exists t, In f (l_held s t)) /\
  (forall t t' f, In f (l_held s t) -> In f (l_held s t') -> t = t') /\
  (forall t, NoDup (l_held s t)).
Lemma linv_reach s : lreach s -> linv s.
Proof.
  induction 1 as [|s s' R (A & B & C) ST].
  - split; [|split]; cbn; [|tauto|constructor]. intros f. split; [discriminate|intros (? & [])].
  - destruct ST as [s t f SP|s t f SP|s t f fs SP H].
    + split; [|split]; auto.
    + unfold linv. cbn [l_flags l_held l_spin]. destruct (l_flags s f) eqn:E.
      * split; [|split]; auto. intros g. destruct (Nat.eq_dec g f) as [->|N]; [rewrite upd_eq|rewrite upd_ne by auto; apply A]. split; [intros _; apply A; exact E|auto].
      * assert (NF : forall t, ~ In f (l_held s t)) by (intros u I; assert (l_flags s f = true) by (apply A; eauto); congruence).
        split; [|split].
        -- intros g. destruct (Nat.eq_dec g f) as [->|N]; [rewrite upd_eq; split; [intros _; exists t; rewrite upd_eq; left; reflexivity|auto]|].
           rewrite upd_ne by auto. rewrite A. split; intros (u & I); exists u; destruct (Nat.eq_dec u t) as [->|NU].
           ++ rewrite upd_eq. right. exact I.
           ++ rewrite upd_ne; auto.
           ++ rewrite upd_eq in I. destruct I; [congruence|auto].
           ++ rewrite upd_ne in I; auto.
        -- intros u v g I J. destruct (Nat.eq_dec u t) as [->|NU]; destruct (Nat.eq_dec v t) as [->|NV]; [reflexivity|rewrite upd_eq in I; rewrite upd_ne in J by auto|rewrite upd_eq in J; rewrite upd_ne in I by auto|rewrite upd_ne in I, J by auto; eapply B; eauto].
           ++ destruct I as [<-|I]; [exfalso; eapply NF; eauto|eapply B; eauto].
           ++ destruct J as [<-|J]; [exfalso; eapply NF; eauto|eapply B; eauto].
        -- intros u. destruct (Nat.eq_dec u t) as [->|NU]; [rewrite upd_eq; constructor; auto|rewrite upd_ne by auto; auto].
    + assert (NDt := C t). rewrite H in NDt. inversion NDt as [|? ? NI ND]; subst.
      split; [|split]; cbn [l_flags l_held l_spin].
      * intros g. destruct (Nat.eq_dec g f) as [->|N]; [rewrite upd_eq; split; [discriminate|]|rewrite upd_ne by auto; rewrite A].
        -- intros (u & I). exfalso. destruct (Nat.eq_dec u t) as [->|NU]; [rewrite upd_eq in I; contradiction|]. rewrite upd_ne in I by auto.
           apply NU. eapply B; [exact I|]. rewrite H. left. reflexivity.
        -- split; intros (u & I); exists u; destruct (Nat.eq_dec u t) as [->|NU].
           ++ rewrite upd_eq. rewrite H in I. destruct I; [congruence|auto].
           ++ rewrite upd_ne; auto.
           ++ rewrite upd_eq in I. rewrite H. right. exact I.
           ++ rewrite upd_ne in I; auto.
      * intros u v g I J. assert (SUB : forall w, In g (upd (l_held s) t fs w) -> In g (l_held s w)).
        { intros w W. destruct (Nat.eq_dec w t) as [->|NW]; [rewrite upd_eq in W; rewrite H; right; exact W|rewrite upd_ne in W; auto]. }
        eapply B; [apply SUB; exact I|apply SUB; exact J].
      * intros u. destruct (Nat.eq_dec u t) as [->|NU]; [rewrite upd_eq; exact ND|rewrite upd_ne by auto; auto].
Qed.

(** C54. In every execution of any number of threads using any number of flags, at most one guard holds a flag. *)
Theorem mutual_exclusion : forall s, lreach s -> forall t t' f, In f (l_held s t) -> In f (l_held s t') -> t = t' /\ count_occ Nat.eq_dec (l_held s t) f = 1.
Proof.
  intros s R t t' f I J. destruct (linv_reach s R) as (_ & B & C). split; [eapply B; eauto|]. apply NoDup_count_occ'; auto.
Qed.
(** C54. A flag that no guard holds can be acquired by every thread which waits for it, in one step; while it is held, waiting changes nothing. *)
Theorem released_lock_acquired : forall s, lreach s -> forall t f, l_spin s t = Some f ->
  ((forall t', ~ In f (l_held s t')) -> exists s', lstep s s' /\ In f (l_held s' t) /\ l_spin s' t = None) /\
  ((exists t', In f (l_held s t')) -> forall s', lstep s s' -> l_held s' t = l_held s t /\ l_spin s' t = Some f).
Proof.
  intros s R t f SP. destruct (linv_reach s R) as (A & _ & _). split.
  - intros NH. assert (E : l_flags s f = false) by (destruct (l_flags s f) eqn:E; [|reflexivity]; apply A in E as (u & I); exfalso; eapply NH; eauto).
    eexists. split; [apply (step_test_and_set s t f SP)|]. rewrite E. cbn [l_held l_spin]. rewrite !upd_eq. split; [left|]; reflexivity.
  - intros HE s' ST. assert (E : l_flags s f = true) by (apply A; exact HE). destruct ST as [s u g SU|s u g SU|s u g gs SU H]; cbn [l_held l_spin].
    + assert (t <> u) by congruence. rewrite upd_ne by auto. auto.
    + destruct (l_flags s g) eqn:EG; [auto|]. assert (t <> u) by congruence. rewrite !upd_ne by auto. auto.
    + assert (t <> u) by congruence. rewrite upd_ne by auto. auto.
Qed.
(** Some thread can always move (a thread never gets stuck): a waiting thread can execute its test_and_set, the others can begin. *)
Theorem lock_never_stuck : forall s t, exists s', lstep s s' /\ forall u, u <> t -> l_held s' u = l_held s u /\ l_spin s' u = l_spin s u.
Proof.
  intros s t. destruct (l_spin s t) as [f|] eqn:E.
  - eexists. split; [apply (step_test_and_set s t f E)|]. intros u N. cbn [l_held l_spin]. destruct (l_flags s f); rewrite ?upd_ne; auto.
  - eexists. split; [apply (step_begin s t 0 E)|]. intros u N. cbn [l_held l_spin]. rewrite ?upd_ne; auto.
Qed.

(** * A protected variable *)
Section Counter.
Context {A : Type} (x0 : A).
Definition inside (p : pc A) : bool := match p with Entered _ | Loaded _ _ | Stored => true | _ => false end.
(** The value after the sections, the first of the list last. *)
Fixpoint run (l : list (A -> A)) : A := match l with [] => x0 | f :: l' => f (run l') end.
Definition cinv (s : cstate A) : Prop :=
  (forall t t', inside (c_pc s t) = true -> inside (c_pc s t') = true -> t = t') /\
  (c_flag s = true <-> exists t, inside (c_pc s t) = true) /\
  (forall t, match c_pc s t with
             | Entered f => exists l, c_entered s = f :: l /\ c_var s = run l
             | Loaded f r => exists l, c_entered s = f :: l /\ c_var s = run l /\ r = c_var s
             | Stored => c_var s = run (c_entered s)
             | _ => True
             end) /\
  (c_flag s = false -> c_var s = run (c_entered s)).
Lemma cinv_reach s : creach x0 s -> cinv s.
Proof.
  induction 1 as [|s s' R (I1 & I2 & I3 & I4) ST].
  - split; [|split; [|split]]; cbn; auto; try discriminate. split; [discriminate|intros (? & ?); discriminate].
  - destruct ST as [s t f E|s t f E F|s t f E F|s t f E|s t f r E|s t E]; unfold cinv; cbn [c_flag c_var c_pc c_entered].
    + assert (IN : forall u, inside (upd (c_pc s) t (Spinning f) u) = inside (c_pc s u)).
      { intros u. destruct (Nat.eq_dec u t) as [->|N]; [rewrite upd_eq, E; reflexivity|rewrite upd_ne; auto]. }
      split; [|split; [|split]]; auto.
      * intros u v. rewrite !IN. apply I1.
      * rewrite I2. split; intros (u & U); exists u; rewrite IN in *; auto.
      * intros u. destruct (Nat.eq_dec u t) as [->|N]; [rewrite upd_eq; exact I|rewrite upd_ne by auto; apply I3].
    + rewrite F in *. split; [|split; [|split]]; auto.
    + assert (NI : forall u, inside (c_pc s u) = false).
      { intros u. destruct (inside (c_pc s u)) eqn:X; [|reflexivity]. assert (c_flag s = true) by (apply I2; eauto). congruence. }
      split; [|split; [|split]].
      * intros u v. destruct (Nat.eq_dec u t) as [->|NU]; destruct (Nat.eq_dec v t) as [->|NV]; rewrite ?upd_eq, ?upd_ne by auto; auto; rewrite ?NI; intros; try discriminate.
      * split; [intros _; exists t; rewrite upd_eq; reflexivity|auto].
      * intros u. destruct (Nat.eq_dec u t) as [->|NU]; [rewrite upd_eq; exists (c_entered s); auto|rewrite upd_ne by auto].
        specialize (NI u). destruct (c_pc s u); auto; discriminate NI.
      * discriminate.
    + assert (IT : inside (c_pc s t) = true) by (rewrite E; reflexivity).
      assert (IN : forall u, inside (upd (c_pc s) t (Loaded f (c_var s)) u) = inside (c_pc s u)).
      { intros u. destruct (Nat.eq_dec u t) as [->|N]; [rewrite upd_eq, E; reflexivity|rewrite upd_ne; auto]. }
      split; [|split; [|split]]; auto.
      * intros u v. rewrite !IN. apply I1.
      * rewrite I2. split; intros (u & U); exists u; rewrite IN in *; auto.
      * intros u. destruct (Nat.eq_dec u t) as [->|N]; [|rewrite upd_ne by auto; apply I3]. rewrite upd_eq. specialize (I3 t). rewrite E in I3. destruct I3 as (l & L1 & L2). eauto.
    + assert (IT : inside (c_pc s t) = true) by (rewrite E; reflexivity).
      assert (IN : forall u, inside (upd (c_pc s) t Stored u) = inside (c_pc s u)).
      { intros u. destruct (Nat.eq_dec u t) as [->|N]; [rewrite upd_eq, E; reflexivity|rewrite upd_ne; auto]. }
      pose proof (I3 t) as I3t. rewrite E in I3t. destruct I3t as (l & L1 & L2 & L3).
      assert (V : f r = run (c_entered s)) by (rewrite L1, L3, L2; reflexivity).
      split; [|split; [|split]]; auto.
      * intros u v. rewrite !IN. apply I1.
      * rewrite I2. split; intros (u & U); exists u; rewrite IN in *; auto.
      * intros u. destruct (Nat.eq_dec u t) as [->|N]; [rewrite upd_eq; exact V|rewrite upd_ne by auto].
        destruct (c_pc s u) eqn:EU; auto; exfalso; apply N; apply I1; auto; rewrite EU; reflexivity.
    + assert (IT : inside (c_pc s t) = true) by (rewrite E; reflexivity).
      assert (V : c_var s = run (c_entered s)) by (specialize (I3 t); rewrite E in I3; exact I3).
      assert (IN : forall u, inside (upd (c_pc s) t Idle u) = false).
      { intros u. destruct (Nat.eq_dec u t) as [->|N]; [rewrite upd_eq; reflexivity|rewrite upd_ne by auto]. destruct (inside (c_pc s u)) eqn:X; [|reflexivity]. exfalso. auto. }
      split; [|split; [|split]]; auto.
      * intros u v. rewrite !IN. discriminate.
      * split; [discriminate|intros (u & U); rewrite IN in U; discriminate].
      * intros u. specialize (IN u). destruct (upd (c_pc s) t Idle u); auto; discriminate IN.
Qed.
End Counter.

(** C54. Read-modify-write sections under the lock are never lost or mixed: whenever the lock is free the variable has the value of the sections run one after the other, in the order in which the lock was taken. *)
Theorem sections_serialise : forall {A} (x0 : A) s, creach x0 s -> (forall t, c_pc s t = Idle) -> c_flag s = false /\ c_var s = fold_right (fun f x => f x) x0 (c_entered s).
Proof.
  intros A x0 s R ID. destruct (cinv_reach x0 s R) as (_ & I2 & _ & I4).
  assert (F : c_flag s = false). { destruct (c_flag s); [|reflexivity]. destruct (proj1 I2 eq_refl) as (t & T). rewrite ID in T. discriminate T. }
  split; [exact F|]. rewrite (I4 F). clear. induction (c_entered s); cbn; congruence.
Qed.
(** In particular additions to a counter: none is lost, in every schedule. *)
Theorem no_lost_update : forall s, creach 0 s -> (forall t, c_pc s t = Idle) -> (forall f, In f (c_entered s) -> f = Nat.add 1) -> c_var s = List.length (c_entered s).
Proof.
  intros s R ID H. destruct (sections_serialise 0 s R ID) as (_ & ->). induction (c_entered s) as [|f l IH]; [reflexivity|]. cbn [fold_right List.length].
  rewrite (H f) by (left; reflexivity). rewrite IH; [reflexivity|]. intros g G. apply H. right. exact G.
Qed.

(** * Non-vacuity *)
(** Thread 1 takes flag 7, thread 2 waits for it, thread 1 releases it, thread 2 takes it. *)
Definition l1 := LState (l_flags lock_init) (l_held lock_init) (upd (l_spin lock_init) 1 (Some 7)).
Definition l2 := LState (upd (l_flags l1) 7 true) (upd (l_held l1) 1 (7 :: l_held l1 1)) (upd (l_spin l1) 1 None).
Definition l3 := LState (l_flags l2) (l_held l2) (upd (l_spin l2) 2 (Some 7)).
Definition l4 := LState (upd (l_flags l3) 7 true) (l_held l3) (l_spin l3).
Definition l5 := LState (upd (l_flags l4) 7 false) (upd (l_held l4) 1 []) (l_spin l4).
Definition l6 := LState (upd (l_flags l5) 7 true) (upd (l_held l5) 2 (7 :: l_held l5 2)) (upd (l_spin l5) 2 None).
Example lock_run : lreach l4 /\ l_held l4 1 = [7] /\ l_spin l4 2 = Some 7 /\ lreach l6 /\ l_held l6 1 = [] /\ l_held l6 2 = [7].
Proof.
  assert (R4 : lreach l4).
  { apply (reach_step l3 l4); [apply (reach_step l2 l3); [apply (reach_step l1 l2); [apply (reach_step lock_init l1); [constructor|]|]|]|].
    - exact (step_begin lock_init 1 7 eq_refl).
    - exact (step_test_and_set l1 1 7 eq_refl).
    - exact (step_begin l2 2 7 eq_refl).
    - exact (step_test_and_set l3 2 7 eq_refl). }
  assert (R6 : lreach l6).
  { apply (reach_step l5 l6); [apply (reach_step l4 l5); [exact R4|]|].
    - exact (step_clear l4 1 7 [] eq_refl eq_refl).
    - exact (step_test_and_set l5 2 7 eq_refl). }
  split; [exact R4|]. split; [reflexivity|]. split; [reflexivity|]. split; [exact R6|]. split; reflexivity.
Qed.
(** Two threads add 1 to a variable, with interleaved attempts. *)
Definition add1 := Nat.add 1.
Definition q0 := CState false 0 (fun _ => Idle) [].
Definition q1 := CState (c_flag q0) (c_var q0) (upd (c_pc q0) 1 (Spinning add1)) (c_entered q0).
Definition q2 := CState (c_flag q1) (c_var q1) (upd (c_pc q1) 2 (Spinning add1)) (c_entered q1).
Definition q3 := CState true (c_var q2) (upd (c_pc q2) 1 (Entered add1)) (add1 :: c_entered q2).
Definition q4 := CState true (c_var q3) (c_pc q3) (c_entered q3).
Definition q5 := CState (c_flag q4) (c_var q4) (upd (c_pc q4) 1 (Loaded add1 (c_var q4))) (c_entered q4).
Definition q6 := CState (c_flag q5) (add1 0) (upd (c_pc q5) 1 Stored) (c_entered q5).
Definition q7 := CState false (c_var q6) (upd (c_pc q6) 1 Idle) (c_entered q6).
Definition q8 := CState true (c_var q7) (upd (c_pc q7) 2 (Entered add1)) (add1 :: c_entered q7).
Definition q9 := CState (c_flag q8) (c_var q8) (upd (c_pc q8) 2 (Loaded add1 (c_var q8))) (c_entered q8).
Definition q10 := CState (c_flag q9) (add1 1) (upd (c_pc q9) 2 Stored) (c_entered q9).
Definition q11 := CState false (c_var q10) (upd (c_pc q10) 2 Idle) (c_entered q10).
Example counter_run : creach 0 q11 /\ (forall t, c_pc q11 t = Idle) /\ (forall f, In f (c_entered q11) -> f = Nat.add 1) /\ List.length (c_entered q11) = 2 /\ c_var q11 = 2.
Proof.
  split.
  - apply (creach_step 0 q10); [|exact (c_clear q10 2 eq_refl)].
    apply (creach_step 0 q9); [|exact (c_store q9 2 add1 1 eq_refl)].
    apply (creach_step 0 q8); [|exact (c_load q8 2 add1 eq_refl)].
    apply (creach_step 0 q7); [|exact (c_tas_ok q7 2 add1 eq_refl eq_refl)].
    apply (creach_step 0 q6); [|exact (c_clear q6 1 eq_refl)].
    apply (creach_step 0 q5); [|exact (c_store q5 1 add1 0 eq_refl)].
    apply (creach_step 0 q4); [|exact (c_load q4 1 add1 eq_refl)].
    apply (creach_step 0 q3); [|exact (c_tas_fail q3 2 add1 eq_refl eq_refl)].
    apply (creach_step 0 q2); [|exact (c_tas_ok q2 1 add1 eq_refl eq_refl)].
    apply (creach_step 0 q1); [|exact (c_begin q1 2 add1 eq_refl)].
    apply (creach_step 0 q0); [constructor|exact (c_begin q0 1 add1 eq_refl)].
  - split; [|split; [|split; reflexivity]].
    + intros t. destruct t as [|[|[|t]]]; reflexivity.
    + cbn. intros f [<-|[<-|[]]]; reflexivity.
Qed.

Print Assumptions mutual_exclusion.
Print Assumptions released_lock_acquired.
Print Assumptions lock_never_stuck.
Print Assumptions sections_serialise.
Print Assumptions no_lost_update.
