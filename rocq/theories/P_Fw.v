(** Properties C55 and C61: the flyweight registry and its holder. *)
From Coq Require Import List Arith Bool Lia.
From Verif Require Import LockModel FwModel P_Lock.
Import ListNotations.

(** The results of the calls for a type, in order. *)
Definition results (tp : tpi) (log : list fevent) : list (option addr * bool) :=
  flat_map (fun e => match e with Returned _ tp' a b => if Nat.eqb tp' tp then [(a, b)] else [] | Threw _ _ => [] end) log.

Definition locked (p : fpc) : bool := match p with FLocked _ _ | FEmplaced _ _ | FDone _ _ _ => true | _ => false end.
Definition pending (s : fstate) (tp : tpi) : Prop := exists t a, f_pc s t = FDone tp a true.

Definition finv (s : fstate) : Prop :=
  (forall t, locked (f_pc s t) = true <-> f_mutex s = Some t) /\
  (forall tp, f_map s tp = Null -> exists t n, f_pc s t = FEmplaced tp n) /\
  (forall t tp n, f_pc s t = FEmplaced tp n -> f_map s tp = Null) /\
  (forall t tp a b, f_pc s t = FDone tp a b -> exists x, a = Some x /\ f_map s tp = Has x) /\
  (forall tp a, f_map s tp = Has a -> In a (map fst (f_heap s))) /\
  (forall tp tp' a, f_map s tp = Has a -> f_map s tp' = Has a -> tp = tp') /\
  (forall tp, (results tp (f_log s) = [] /\ (pending s tp \/ forall a, f_map s tp <> Has a)) \/
              (exists a k, results tp (f_log s) = (Some a, true) :: repeat (Some a, false) k /\ f_map s tp = Has a /\ ~ pending s tp)) /\
  NoDup (map fst (f_heap s)).

Lemma results_app tp l m : results tp (l ++ m) = results tp l ++ results tp m.
Proof. apply flat_map_app. Qed.
Lemma repeat_snoc {A} (a : A) k : repeat a k ++ [a] = repeat a (S k).
Proof. induction k; cbn in *; congruence. Qed.

Ltac same t u := destruct (Nat.eq_dec u t) as [->|]; [rewrite upd_eq in *|rewrite upd_ne in * by auto].

Lemma finv_reach s : freach s -> finv s.
Proof.
  induction 1 as [|s s' R (M & N1 & N2 & D & H & U & L & ND) ST].
  - unfold finv. cbn. repeat apply conj; try discriminate; try constructor; try discriminate. split; [reflexivity|right; discriminate].
  - assert (UNI : forall t u, locked (f_pc s t) = true -> locked (f_pc s u) = true -> t = u).
    { intros t u A B. apply M in A, B. congruence. }
    destruct ST as [s t tp n P|s t tp n P MX|s t tp n P AB|s t tp n P AB|s t tp n a P FR|s t tp n P|s t tp a b P]; unfold finv; cbn [f_map f_heap f_mutex f_pc f_log].
    + (* call *)
      assert (PE : forall u v, v <> FIdle -> (forall y n, v <> FWait y n) -> upd (f_pc s) t (FWait tp n) u = v <-> f_pc s u = v).
      { intros u v V1 V2. destruct (Nat.eq_dec u t) as [->|NE]; [rewrite upd_eq, P|rewrite upd_ne by auto; tauto]. split; intros; subst; exfalso; [eapply V2; eauto|congruence]. }
      repeat apply conj; auto.
      * intros u. rewrite <- M. destruct (Nat.eq_dec u t) as [->|NE]; [rewrite upd_eq, P; cbn; tauto|rewrite upd_ne by auto; tauto].
      * intros y Y. destruct (N1 y Y) as (u & k & E). exists u, k. apply PE; auto; discriminate.
      * intros u y k E. apply PE in E; [|discriminate|discriminate]. eauto.
      * intros u y a b E. apply PE in E; [|discriminate|discriminate]. eauto.
      * intros y. assert (PD : pending {| f_map := f_map s; f_heap := f_heap s; f_mutex := f_mutex s; f_pc := upd (f_pc s) t (FWait tp n); f_log := f_log s |} y <-> pending s y).
        { split; intros (u & a & E); exists u, a; apply PE; auto; try discriminate. }
        destruct (L y) as [[L1 [L2|L2]]|(a & k & L1 & L2 & L3)]; [left; split; [auto|left; apply PD; auto]|left; auto|right; exists a, k; split; [auto|split; [auto|intro X; apply L3; apply PD; exact X]]].
    + (* lock *)
      assert (NL : forall u, locked (f_pc s u) = false). { intros u. destruct (locked (f_pc s u)) eqn:X; [|reflexivity]. apply M in X. congruence. }
      assert (PF : forall u y a b, upd (f_pc s) t (FLocked tp n) u = FDone y a b -> False). { intros u y a b E. same t u; [discriminate|]. specialize (NL u). rewrite E in NL. discriminate. }
      repeat apply conj; auto.
      * intros u. destruct (Nat.eq_dec u t) as [->|NE]; [rewrite upd_eq; cbn; tauto|rewrite upd_ne by auto]. rewrite NL. split; [discriminate|congruence].
      * intros y Y. exfalso. destruct (N1 y Y) as (u & k & E). specialize (NL u). rewrite E in NL. discriminate.
      * intros u y k E. same t u; [discriminate|]. eauto.
      * intros u y a b E. exfalso. eauto.
      * intros y. destruct (L y) as [[L1 [(u & a & E)|L2]]|(a & k & L1 & L2 & L3)].
        -- exfalso. specialize (NL u). rewrite E in NL. discriminate.
        -- left. auto.
        -- right. exists a, k. split; [auto|split; [auto|]]. intros (u & x & E). eauto.
    + (* emplace new *)
      assert (LT : locked (f_pc s t) = true) by (rewrite P; reflexivity).
      assert (ONLY : forall u, u <> t -> locked (f_pc s u) = false). { intros u NE. destruct (locked (f_pc s u)) eqn:X; [|reflexivity]. exfalso. auto. }
      repeat apply conj; auto.
      * intros u. rewrite <- M. destruct (Nat.eq_dec u t) as [->|NE]; [rewrite upd_eq, P; cbn; tauto|rewrite upd_ne by auto; tauto].
      * intros y Y. destruct (Nat.eq_dec y tp) as [->|NE]; [exists t, n; apply upd_eq|rewrite upd_ne in Y by auto]. exfalso. destruct (N1 y Y) as (u & k & E).
        destruct (Nat.eq_dec u t) as [->|NU]; [congruence|]. specialize (ONLY u NU). rewrite E in ONLY. discriminate.
      * intros u y k E. destruct (Nat.eq_dec u t) as [->|NU]; [rewrite upd_eq in E; injection E as <- <-; apply upd_eq|rewrite upd_ne in E by auto].
        specialize (ONLY u NU). rewrite E in ONLY. discriminate.
      * intros u y a b E. destruct (Nat.eq_dec u t) as [->|NU]; [rewrite upd_eq in E; discriminate|rewrite upd_ne in E by auto]. specialize (ONLY u NU). rewrite E in ONLY. discriminate.
      * intros y a Y. destruct (Nat.eq_dec y tp) as [->|NE]; [rewrite upd_eq in Y; discriminate|rewrite upd_ne in Y by auto; eauto].
      * intros y z a Y Z. destruct (Nat.eq_dec y tp) as [->|NE]; [rewrite upd_eq in Y; discriminate|rewrite upd_ne in Y by auto].
        destruct (Nat.eq_dec z tp) as [->|NE2]; [rewrite upd_eq in Z; discriminate|rewrite upd_ne in Z by auto]. eauto.
      * intros y. destruct (L y) as [[L1 L2]|(a & k & L1 & L2 & L3)].
        -- left. split; [auto|]. right. intros a. destruct (Nat.eq_dec y tp) as [->|NE]; [rewrite upd_eq; discriminate|rewrite upd_ne by auto]. destruct L2 as [(u & x & E)|L2]; [|auto].
           exfalso. destruct (Nat.eq_dec u t) as [->|NU]; [congruence|]. specialize (ONLY u NU). rewrite E in ONLY. discriminate.
        -- right. exists a, k. destruct (Nat.eq_dec y tp) as [->|NE]; [congruence|]. split; [auto|]. split; [rewrite upd_ne; auto|]. intros (u & x & E). cbn [f_pc] in E.
           destruct (Nat.eq_dec u t) as [->|NU]; [rewrite upd_eq in E; discriminate|rewrite upd_ne in E by auto]. specialize (ONLY u NU). rewrite E in ONLY. discriminate.
    + (* emplace old *)
      assert (LT : locked (f_pc s t) = true) by (rewrite P; reflexivity).
      assert (ONLY : forall u, u <> t -> locked (f_pc s u) = false). { intros u NE. destruct (locked (f_pc s u)) eqn:X; [|reflexivity]. exfalso. auto. }
      assert (HT : exists x, f_map s tp = Has x).
      { destruct (f_map s tp) as [| |x] eqn:E; [congruence| |eauto]. exfalso. destruct (N1 tp E) as (u & k & E2). destruct (Nat.eq_dec u t) as [->|NU]; [congruence|]. specialize (ONLY u NU). rewrite E2 in ONLY. discriminate. }
      destruct HT as (x & HT). rewrite HT. cbn [slot_addr].
      repeat apply conj; auto.
      * intros u. rewrite <- M. destruct (Nat.eq_dec u t) as [->|NE]; [rewrite upd_eq, P; cbn; tauto|rewrite upd_ne by auto; tauto].
      * intros y Y. destruct (N1 y Y) as (u & k & E). exists u, k. destruct (Nat.eq_dec u t) as [->|NU]; [congruence|rewrite upd_ne; auto].
      * intros u y k E. destruct (Nat.eq_dec u t) as [->|NU]; [rewrite upd_eq in E; discriminate|rewrite upd_ne in E by auto; eauto].
      * intros u y a b E. destruct (Nat.eq_dec u t) as [->|NU]; [rewrite upd_eq in E; injection E as <- <- <-; eauto|rewrite upd_ne in E by auto; eauto].
      * intros y. assert (PD : pending {| f_map := f_map s; f_heap := f_heap s; f_mutex := f_mutex s; f_pc := upd (f_pc s) t (FDone tp (Some x) false); f_log := f_log s |} y <-> pending s y).
        { split; intros (u & a & E); exists u, a; cbn [f_pc] in *; (destruct (Nat.eq_dec u t) as [->|NU]; [rewrite ?upd_eq in *; try congruence|rewrite ?upd_ne in * by auto; auto]). }
        destruct (L y) as [[L1 [L2|L2]]|(a & k & L1 & L2 & L3)]; [left; split; [auto|left; apply PD; auto]|left; auto|right; exists a, k; split; [auto|split; [auto|intro X; apply L3; apply PD; exact X]]].
    + (* alloc *)
      assert (LT : locked (f_pc s t) = true) by (rewrite P; reflexivity).
      assert (ONLY : forall u, u <> t -> locked (f_pc s u) = false). { intros u NE. destruct (locked (f_pc s u)) eqn:X; [|reflexivity]. exfalso. auto. }
      assert (NUL : f_map s tp = Null) by eauto.
      repeat apply conj.
      * intros u. rewrite <- M. destruct (Nat.eq_dec u t) as [->|NE]; [rewrite upd_eq, P; cbn; tauto|rewrite upd_ne by auto; tauto].
      * intros y Y. exfalso. destruct (Nat.eq_dec y tp) as [->|NE]; [rewrite upd_eq in Y; discriminate|rewrite upd_ne in Y by auto]. destruct (N1 y Y) as (u & k & E).
        destruct (Nat.eq_dec u t) as [->|NU]; [congruence|]. specialize (ONLY u NU). rewrite E in ONLY. discriminate.
      * intros u y k E. exfalso. destruct (Nat.eq_dec u t) as [->|NU]; [rewrite upd_eq in E; discriminate|rewrite upd_ne in E by auto]. specialize (ONLY u NU). rewrite E in ONLY. discriminate.
      * intros u y b c E. destruct (Nat.eq_dec u t) as [->|NU]; [rewrite upd_eq in E; injection E as <- <- <-; exists a; split; [reflexivity|apply upd_eq]|rewrite upd_ne in E by auto].
        exfalso. specialize (ONLY u NU). rewrite E in ONLY. discriminate.
      * intros y b Y. cbn [map fst In]. destruct (Nat.eq_dec y tp) as [->|NE]; [rewrite upd_eq in Y; left; congruence|rewrite upd_ne in Y by auto; right; eauto].
      * intros y z b Y Z. destruct (Nat.eq_dec y tp) as [->|NE]; [rewrite upd_eq in Y|rewrite upd_ne in Y by auto]; (destruct (Nat.eq_dec z tp) as [->|NE2]; [rewrite upd_eq in Z|rewrite upd_ne in Z by auto]); auto.
        -- exfalso. apply FR. injection Y as <-. eauto.
        -- exfalso. apply FR. injection Z as <-. eauto.
        -- eauto.
      * intros y. destruct (L y) as [[L1 L2]|(b & k & L1 & L2 & L3)].
        -- left. split; [auto|]. destruct (Nat.eq_dec y tp) as [->|NE]; [left; exists t, (Some a); apply upd_eq|]. right. intros b. rewrite upd_ne by auto. destruct L2 as [(u & x & E)|L2]; [|auto].
           exfalso. destruct (Nat.eq_dec u t) as [->|NU]; [congruence|]. specialize (ONLY u NU). rewrite E in ONLY. discriminate.
        -- right. exists b, k. destruct (Nat.eq_dec y tp) as [->|NE]; [congruence|]. split; [auto|]. split; [rewrite upd_ne; auto|]. intros (u & x & E). cbn [f_pc] in E.
           destruct (Nat.eq_dec u t) as [->|NU]; [rewrite upd_eq in E; congruence|rewrite upd_ne in E by auto]. specialize (ONLY u NU). rewrite E in ONLY. discriminate.
      * cbn [map fst]. constructor; auto.
    + (* throw *)
      assert (LT : locked (f_pc s t) = true) by (rewrite P; reflexivity).
      assert (ONLY : forall u, u <> t -> locked (f_pc s u) = false). { intros u NE. destruct (locked (f_pc s u)) eqn:X; [|reflexivity]. exfalso. auto. }
      assert (NUL : f_map s tp = Null) by eauto.
      repeat apply conj; auto.
      * intros u. destruct (Nat.eq_dec u t) as [->|NE]; [rewrite upd_eq; cbn; split; discriminate|rewrite upd_ne by auto]. rewrite ONLY by auto. split; discriminate.
      * intros y Y. exfalso. destruct (Nat.eq_dec y tp) as [->|NE]; [rewrite upd_eq in Y; discriminate|rewrite upd_ne in Y by auto]. destruct (N1 y Y) as (u & k & E).
        destruct (Nat.eq_dec u t) as [->|NU]; [congruence|]. specialize (ONLY u NU). rewrite E in ONLY. discriminate.
      * intros u y k E. exfalso. destruct (Nat.eq_dec u t) as [->|NU]; [rewrite upd_eq in E; discriminate|rewrite upd_ne in E by auto]. specialize (ONLY u NU). rewrite E in ONLY. discriminate.
      * intros u y b c E. exfalso. destruct (Nat.eq_dec u t) as [->|NU]; [rewrite upd_eq in E; discriminate|rewrite upd_ne in E by auto]. specialize (ONLY u NU). rewrite E in ONLY. discriminate.
      * intros y b Y. destruct (Nat.eq_dec y tp) as [->|NE]; [rewrite upd_eq in Y; discriminate|rewrite upd_ne in Y by auto; eauto].
      * intros y z b Y Z. destruct (Nat.eq_dec y tp) as [->|NE]; [rewrite upd_eq in Y; discriminate|rewrite upd_ne in Y by auto].
        destruct (Nat.eq_dec z tp) as [->|NE2]; [rewrite upd_eq in Z; discriminate|rewrite upd_ne in Z by auto]. eauto.
      * intros y. rewrite results_app. cbn [results flat_map app]. rewrite app_nil_r. destruct (L y) as [[L1 L2]|(b & k & L1 & L2 & L3)].
        -- left. split; [auto|]. right. intros b. destruct (Nat.eq_dec y tp) as [->|NE]; [rewrite upd_eq; discriminate|rewrite upd_ne by auto]. destruct L2 as [(u & x & E)|L2]; [|auto].
           exfalso. destruct (Nat.eq_dec u t) as [->|NU]; [congruence|]. specialize (ONLY u NU). rewrite E in ONLY. discriminate.
        -- right. exists b, k. destruct (Nat.eq_dec y tp) as [->|NE]; [congruence|]. split; [auto|]. split; [rewrite upd_ne; auto|]. intros (u & x & E). cbn [f_pc] in E.
           destruct (Nat.eq_dec u t) as [->|NU]; [rewrite upd_eq in E; discriminate|rewrite upd_ne in E by auto]. specialize (ONLY u NU). rewrite E in ONLY. discriminate.
    + (* return *)
      assert (LT : locked (f_pc s t) = true) by (rewrite P; reflexivity).
      assert (ONLY : forall u, u <> t -> locked (f_pc s u) = false). { intros u NE. destruct (locked (f_pc s u)) eqn:X; [|reflexivity]. exfalso. auto. }
      destruct (D t tp a b P) as (x & -> & HX).
      assert (NP : forall y, ~ pending {| f_map := f_map s; f_heap := f_heap s; f_mutex := None; f_pc := upd (f_pc s) t FIdle; f_log := f_log s ++ [Returned t tp (Some x) b] |} y).
      { intros y (u & z & E). cbn [f_pc] in E. destruct (Nat.eq_dec u t) as [->|NU]; [rewrite upd_eq in E; discriminate|rewrite upd_ne in E by auto]. specialize (ONLY u NU). rewrite E in ONLY. discriminate. }
      repeat apply conj; auto.
      * intros u. destruct (Nat.eq_dec u t) as [->|NE]; [rewrite upd_eq; cbn; split; discriminate|rewrite upd_ne by auto]. rewrite ONLY by auto. split; discriminate.
      * intros y Y. exfalso. destruct (N1 y Y) as (u & k & E). destruct (Nat.eq_dec u t) as [->|NU]; [congruence|]. specialize (ONLY u NU). rewrite E in ONLY. discriminate.
      * intros u y k E. exfalso. destruct (Nat.eq_dec u t) as [->|NU]; [rewrite upd_eq in E; discriminate|rewrite upd_ne in E by auto]. specialize (ONLY u NU). rewrite E in ONLY. discriminate.
      * intros u y c d E. exfalso. destruct (Nat.eq_dec u t) as [->|NU]; [rewrite upd_eq in E; discriminate|rewrite upd_ne in E by auto]. specialize (ONLY u NU). rewrite E in ONLY. discriminate.
      * intros y. rewrite results_app. unfold results at 2 4. cbn [flat_map]. destruct (Nat.eqb_spec tp y) as [<-|NE].
        -- right. exists x. destruct (L tp) as [[L1 L2]|(c & k & L1 & L2 & L3)].
           ++ destruct L2 as [(u & z & E)|L2]; [|exfalso; eapply L2; eauto]. destruct (Nat.eq_dec u t) as [->|NU]; [|specialize (ONLY u NU); rewrite E in ONLY; discriminate].
              rewrite P in E. injection E as <- ->. exists 0. rewrite L1. split; [reflexivity|]. auto.
           ++ assert (c = x) by congruence. subst c. assert (b = false). { destruct b; [|reflexivity]. exfalso. apply L3. exists t, (Some x). exact P. }
              subst b. exists (S k). rewrite L1. cbn [app]. rewrite repeat_snoc. auto.
        -- rewrite !app_nil_r. destruct (L y) as [[L1 [(u & z & E)|L2]]|(c & k & L1 & L2 & L3)].
           ++ exfalso. destruct (Nat.eq_dec u t) as [->|NU]; [congruence|]. specialize (ONLY u NU). rewrite E in ONLY. discriminate.
           ++ left. auto.
           ++ right. exists c, k. auto.
Qed.

(** C55. The calls for a type: the first one returns new storage, all others the same storage, not new; never a null pointer. *)
Theorem one_storage_per_type : forall s tp, freach s -> results tp (f_log s) = [] \/ exists a k, results tp (f_log s) = (Some a, true) :: repeat (Some a, false) k.
Proof. intros s tp R. destruct (finv_reach s R) as (_ & _ & _ & _ & _ & _ & L & _). destruct (L tp) as [[L1 _]|(a & k & L1 & _)]; eauto. Qed.
(** C55. The storage of two types is different, allocated, and no array is used twice. *)
Theorem distinct_storage : forall s tp tp' a b a' b', freach s -> In (a, b) (results tp (f_log s)) -> In (a', b') (results tp' (f_log s)) -> (a = a' <-> tp = tp').
Proof.
  intros s tp tp' a b a' b' R I J. destruct (finv_reach s R) as (_ & _ & _ & _ & _ & U & L & _).
  assert (X : forall tp a b, In (a, b) (results tp (f_log s)) -> exists x, a = Some x /\ f_map s tp = Has x).
  { intros y c d Y. destruct (L y) as [[L1 _]|(x & k & L1 & L2 & _)]; rewrite L1 in Y; [contradiction|]. exists x. destruct Y as [Y|Y]; [injection Y as <- <-; auto|]. apply repeat_spec in Y. injection Y as -> ->. auto. }
  destruct (X _ _ _ I) as (x & -> & HX). destruct (X _ _ _ J) as (y & -> & HY). split.
  - intros E. injection E as <-. eauto.
  - intros <-. congruence.
Qed.
Theorem storage_allocated : forall s tp a b, freach s -> In (a, b) (results tp (f_log s)) -> exists x, a = Some x /\ In x (map fst (f_heap s)) /\ NoDup (map fst (f_heap s)).
Proof.
  intros s tp a b R I. destruct (finv_reach s R) as (_ & _ & _ & _ & H & _ & L & ND).
  destruct (L tp) as [[L1 _]|(x & k & L1 & L2 & _)]; rewrite L1 in I; [contradiction|]. exists x. split; [|split; [eauto|exact ND]].
  destruct I as [I|I]; [congruence|]. apply repeat_spec in I. congruence.
Qed.
(** C55. A failed allocation leaves no trace: nothing was returned for the type, and a later call may succeed. *)
Theorem failure_recoverable : forall s t tp n, freach s -> f_pc s t = FEmplaced tp n -> exists s', fstep s s' /\ f_map s' tp = Absent /\ f_mutex s' = None /\ results tp (f_log s') = [].
Proof.
  intros s t tp n R P. eexists. split; [apply (f_throw s t tp n P)|]. cbn [f_map f_mutex f_log]. split; [apply upd_eq|]. split; [reflexivity|].
  destruct (finv_reach s R) as (M & _ & N2 & _ & _ & _ & L & _). rewrite results_app. cbn [results flat_map]. rewrite !app_nil_r.
  destruct (L tp) as [[L1 _]|(a & k & _ & L2 & _)]; [exact L1|]. rewrite (N2 t tp n P) in L2. discriminate.
Qed.
(** C55. Every call can return: from every state in which a call of a thread is in progress there is an execution at whose end that call has returned an address
    (the calls which hold the mutex go on to their end, the allocations succeed). *)
Inductive fsteps : fstate -> fstate -> Prop :=
| fsteps_refl s : fsteps s s
| fsteps_next s s1 s' : fstep s s1 -> fsteps s1 s' -> fsteps s s'.
Definition calls (p : fpc) : option tpi := match p with FIdle => None | FWait tp _ | FLocked tp _ | FEmplaced tp _ | FDone tp _ _ => Some tp end.
Lemma fsteps_trans a b c : fsteps a b -> fsteps b c -> fsteps a c.
Proof. induction 1; auto. intros. econstructor; eauto. Qed.
Lemma fsteps_reach a b : fsteps a b -> freach a -> freach b.
Proof. induction 1; auto. intros. apply IHfsteps. econstructor; eauto. Qed.
Lemma fresh_addr (h : list (addr * nat)) : exists a, ~ In a (map fst h).
Proof.
  assert (X : exists m, forall a, In a (map fst h) -> a < m).
  { induction h as [|[a n] h (m & IH)]; [exists 0; intros a []|]. exists (S (Nat.max a m)). intros b [<-|I]; cbn; [lia|]. apply IH in I. lia. }
  destruct X as (m & X). exists m. intros I. apply X in I. lia.
Qed.
(** The step from a state, and then the rest of the call. *)
Lemma finish_done s t tp a b : freach s -> f_pc s t = FDone tp a b ->
  exists s', fsteps s s' /\ f_mutex s' = None /\ (forall u, f_pc s' u = upd (f_pc s) t FIdle u) /\
             exists x b', f_log s' = f_log s ++ [Returned t tp (Some x) b'].
Proof.
  intros R P. destruct (finv_reach s R) as (_ & _ & _ & D & _). destruct (D t tp a b P) as (x & -> & _).
  eexists. split; [eapply fsteps_next; [eapply f_return; exact P|apply fsteps_refl]|]. cbn. split; [reflexivity|]. split; [reflexivity|]. exists x, b. reflexivity.
Qed.
Lemma upd_upd {B} (f : nat -> B) t a b u : upd (upd f t a) t b u = upd f t b u.
Proof. destruct (Nat.eq_dec u t) as [->|N]; [rewrite !upd_eq; reflexivity|rewrite !upd_ne by auto; reflexivity]. Qed.
Lemma finish_after s s1 t v : fstep s s1 -> (forall u, f_pc s1 u = upd (f_pc s) t v u) -> f_log s1 = f_log s -> forall tp,
  (exists s', fsteps s1 s' /\ f_mutex s' = None /\ (forall u, f_pc s' u = upd (f_pc s1) t FIdle u) /\ exists x b', f_log s' = f_log s1 ++ [Returned t tp (Some x) b']) ->
  exists s', fsteps s s' /\ f_mutex s' = None /\ (forall u, f_pc s' u = upd (f_pc s) t FIdle u) /\ exists x b', f_log s' = f_log s ++ [Returned t tp (Some x) b'].
Proof.
  intros ST E LE tp (s' & A & B & C & D). exists s'. split; [econstructor; eauto|]. split; [exact B|]. split; [|rewrite <- LE; exact D].
  intros u. rewrite C. destruct (Nat.eq_dec u t) as [->|N]; [rewrite !upd_eq; reflexivity|rewrite upd_ne, E, !upd_ne by auto; reflexivity].
Qed.
Lemma finish_emplaced s t tp n : freach s -> f_pc s t = FEmplaced tp n ->
  exists s', fsteps s s' /\ f_mutex s' = None /\ (forall u, f_pc s' u = upd (f_pc s) t FIdle u) /\
             exists x b', f_log s' = f_log s ++ [Returned t tp (Some x) b'].
Proof.
  intros R P. destruct (fresh_addr (f_heap s)) as (a & FR). pose proof (f_alloc s t tp n a P FR) as ST.
  eapply (finish_after _ _ t _ ST); [reflexivity|reflexivity|]. eapply finish_done; [econstructor; [exact R|exact ST]|cbn; apply upd_eq].
Qed.
Lemma finish_locked s t tp n : freach s -> f_pc s t = FLocked tp n ->
  exists s', fsteps s s' /\ f_mutex s' = None /\ (forall u, f_pc s' u = upd (f_pc s) t FIdle u) /\
             exists x b', f_log s' = f_log s ++ [Returned t tp (Some x) b'].
Proof.
  intros R P. destruct (f_map s tp) as [| |y] eqn:E.
  - pose proof (f_emplace_new s t tp n P E) as ST. eapply (finish_after _ _ t _ ST); [reflexivity|reflexivity|].
    eapply finish_emplaced; [econstructor; [exact R|exact ST]|cbn; apply upd_eq].
  - assert (NE : f_map s tp <> Absent) by (rewrite E; discriminate). pose proof (f_emplace_old s t tp n P NE) as ST. eapply (finish_after _ _ t _ ST); [reflexivity|reflexivity|].
    eapply finish_done; [econstructor; [exact R|exact ST]|cbn; apply upd_eq].
  - assert (NE : f_map s tp <> Absent) by (rewrite E; discriminate). pose proof (f_emplace_old s t tp n P NE) as ST. eapply (finish_after _ _ t _ ST); [reflexivity|reflexivity|].
    eapply finish_done; [econstructor; [exact R|exact ST]|cbn; apply upd_eq].
Qed.
Lemma finish_holder s t : freach s -> f_mutex s = Some t ->
  exists s' tp, calls (f_pc s t) = Some tp /\ fsteps s s' /\ f_mutex s' = None /\ (forall u, f_pc s' u = upd (f_pc s) t FIdle u) /\
             exists x b', f_log s' = f_log s ++ [Returned t tp (Some x) b'].
Proof.
  intros R M. destruct (finv_reach s R) as (I & _). apply I in M. destruct (f_pc s t) as [|tp n|tp n|tp n|tp a b] eqn:P; try discriminate M.
  - destruct (finish_locked s t tp n R P) as (s' & X). exists s', tp. split; [reflexivity|exact X].
  - destruct (finish_emplaced s t tp n R P) as (s' & X). exists s', tp. split; [reflexivity|exact X].
  - destruct (finish_done s t tp a b R P) as (s' & X). exists s', tp. split; [reflexivity|exact X].
Qed.
Theorem fetch_returns : forall s t tp, freach s -> calls (f_pc s t) = Some tp ->
  exists s' a is_new before, fsteps s s' /\ f_pc s' t = FIdle /\ f_log s' = f_log s ++ before ++ [Returned t tp (Some a) is_new].
Proof.
  assert (FREE : forall s t tp n, freach s -> f_pc s t = FWait tp n -> f_mutex s = None ->
            exists s' a b, fsteps s s' /\ f_pc s' t = FIdle /\ f_log s' = f_log s ++ [Returned t tp (Some a) b]).
  { intros s t tp n R P M. pose proof (f_lock s t tp n P M) as ST.
    destruct (finish_locked _ t tp n (freach_step _ _ R ST)) as (s' & A & _ & C & x & b & D); [cbn; apply upd_eq|].
    exists s', x, b. split; [econstructor; eauto|]. split; [rewrite C; apply upd_eq|exact D]. }
  intros s t tp R C. destruct (f_mutex s) as [h|] eqn:M.
  - destruct (finish_holder s h R M) as (s1 & tp1 & C1 & A1 & M1 & P1 & x & b & L1).
    destruct (Nat.eq_dec h t) as [->|N].
    + assert (tp1 = tp) by congruence. subst tp1. exists s1, x, b, []. split; [exact A1|]. split; [rewrite P1; apply upd_eq|exact L1].
    + destruct (f_pc s t) as [|tp' n|tp' n|tp' n|tp' a' b'] eqn:P; try discriminate C.
      1: { cbn in C. injection C as ->. destruct (FREE s1 t tp n (fsteps_reach _ _ A1 R)) as (s' & a & b2 & A2 & P2 & L2); [rewrite P1, upd_ne by auto; exact P|exact M1|].
           exists s', a, b2, [Returned h tp1 (Some x) b]. split; [eapply fsteps_trans; eauto|]. split; [exact P2|]. rewrite L2, L1, <- app_assoc. reflexivity. }
      all: exfalso; apply N; destruct (finv_reach s R) as (I & _); assert (X : locked (f_pc s t) = true) by (rewrite P; reflexivity); apply I in X; congruence.
  - destruct (f_pc s t) as [|tp' n|tp' n|tp' n|tp' a' b'] eqn:P; try discriminate C.
    1: { cbn in C. injection C as ->. destruct (FREE s t tp n R P M) as (s' & a & b & X1 & X2 & X3). exists s', a, b, []. auto. }
    all: exfalso; destruct (finv_reach s R) as (I & _); assert (X : locked (f_pc s t) = true) by (rewrite P; reflexivity); apply I in X; congruence.
Qed.

(** C55. The storage has the size which the callers ask for (a type has one size, fw_utils.hpp:49-50). *)
Inductive freach_sized (size_of : tpi -> nat) : fstate -> Prop :=
| fsized_init : freach_sized size_of fw_init
| fsized_step s s' : freach_sized size_of s -> fstep s s' -> (forall t tp n, f_pc s' t = FWait tp n -> n = size_of tp) -> freach_sized size_of s'.
Lemma sized_reach sz s : freach_sized sz s -> freach s.
Proof. induction 1; econstructor; eauto. Qed.
Definition asks (p : fpc) : option (tpi * nat) := match p with FWait tp n | FLocked tp n | FEmplaced tp n => Some (tp, n) | _ => None end.
Lemma sized_inv sz s : freach_sized sz s ->
  (forall t tp n, asks (f_pc s t) = Some (tp, n) -> n = sz tp) /\ (forall tp a, f_map s tp = Has a -> In (a, sz tp) (f_heap s)).
Proof.
  induction 1 as [|s s' R (A & B) ST W]; [split; cbn; discriminate|].
  destruct ST as [s t tp n P|s t tp n P MX|s t tp n P AB|s t tp n P AB|s t tp n a P FR|s t tp n P|s t tp a b P]; cbn [f_map f_heap f_mutex f_pc f_log] in *;
    (split;
     [intros u y k E; destruct (Nat.eq_dec u t) as [->|N];
       [rewrite upd_eq in E; cbn in E; try discriminate E; injection E as <- <-; first [apply (W t); apply upd_eq|apply (A t); rewrite P; reflexivity]
       |rewrite upd_ne in E by auto; eapply A; eauto]
     |intros y x E; first [now apply B|destruct (Nat.eq_dec y tp) as [->|N]; [rewrite upd_eq in E; try discriminate E|rewrite upd_ne in E by auto; try (now apply B)]]]).
  - injection E as <-. left. f_equal. apply (A t). rewrite P. reflexivity.
  - right. apply B. exact E.
Qed.
Theorem storage_size : forall size_of s tp a b, freach_sized size_of s -> In (a, b) (results tp (f_log s)) -> exists x, a = Some x /\ In (x, size_of tp) (f_heap s).
Proof.
  intros sz s tp a b R I. destruct (sized_inv sz s R) as (_ & B). destruct (finv_reach s (sized_reach sz s R)) as (_ & _ & _ & _ & _ & _ & L & _).
  destruct (L tp) as [[L1 _]|(x & k & L1 & L2 & _)]; rewrite L1 in I; [contradiction|]. exists x. split; [|auto].
  destruct I as [I|I]; [congruence|]. apply repeat_spec in I. congruence.
Qed.

(** * The holder *)
Definition in_impl (p : hpc) : option nat := match p with HIdle => None | HInit m | HNew m | HOld m | HBuilt m => Some m end.
(** The object is constructed at most once, for any number of modules. *)
Definition hinv (s : hstate) : Prop :=
  (h_obj s = NoStorage -> h_built s = 0 /\ forall t m, h_pc s t <> HNew m) /\
  (h_obj s = Raw -> h_built s = 0 /\ exists t m, h_pc s t = HNew m) /\
  (h_obj s = Constructed -> h_built s = 1 /\ forall t m, h_pc s t <> HNew m) /\
  (forall t t' m m', h_pc s t = HNew m -> h_pc s t' = HNew m' -> t = t') /\
  (forall t m, h_pc s t = HOld m -> h_obj s <> NoStorage) /\ (forall t m, h_pc s t = HBuilt m -> h_obj s = Constructed).
Lemma hinv_step s s' : hinv s -> hstep s s' -> hinv s'.
Proof.
  intros (A1 & A2 & A3 & A4 & A5 & A6) ST. destruct ST as [s t m P G|s t m P|s t m P|s t m P|s t m P G]; unfold hinv; cbn [h_obj h_built h_guard h_pc h_got].
  - assert (E : forall u v, v <> HIdle -> v <> HInit m -> upd (h_pc s) t (HInit m) u = v <-> h_pc s u = v).
    { intros u v V1 V2. destruct (Nat.eq_dec u t) as [->|N]; [rewrite upd_eq, P|rewrite upd_ne by auto; tauto]. split; congruence. }
    repeat apply conj.
    + intros O. destruct (A1 O) as [B1 B2]. split; auto. intros u k X. apply E in X; [eapply B2; eauto|discriminate|discriminate].
    + intros O. destruct (A2 O) as [B1 (u & k & B2)]. split; auto. exists u, k. apply E; auto; discriminate.
    + intros O. destruct (A3 O) as [B1 B2]. split; auto. intros u k X. apply E in X; [eapply B2; eauto|discriminate|discriminate].
    + intros u v k l X Y. apply E in X; [|discriminate|discriminate]. apply E in Y; [|discriminate|discriminate]. eauto.
    + intros u k X. apply E in X; [|discriminate|discriminate]. eauto.
    + intros u k X. apply E in X; [|discriminate|discriminate]. eauto.
  - destruct (h_obj s) eqn:O.
    + destruct (A1 eq_refl) as [B1 B2]. repeat apply conj; try discriminate.
      * intros _. split; auto. exists t, m. apply upd_eq.
      * intros u v k l X Y. destruct (Nat.eq_dec u t) as [->|NU]; [|rewrite upd_ne in X by auto; exfalso; eapply B2; eauto].
        destruct (Nat.eq_dec v t) as [->|NV]; [reflexivity|rewrite upd_ne in Y by auto; exfalso; eapply B2; eauto].
      * intros u k X. destruct (Nat.eq_dec u t) as [->|NU]; [rewrite upd_eq in X; discriminate|rewrite upd_ne in X by auto]. apply A6 in X. discriminate.
    + destruct (A2 eq_refl) as [B1 (w & l & B2)]. repeat apply conj; try discriminate.
      * intros _. split; auto. exists w, l. destruct (Nat.eq_dec w t) as [->|NU]; [congruence|rewrite upd_ne; auto].
      * intros u v k k' X Y. destruct (Nat.eq_dec u t) as [->|NU]; [rewrite upd_eq in X; discriminate|rewrite upd_ne in X by auto].
        destruct (Nat.eq_dec v t) as [->|NV]; [rewrite upd_eq in Y; discriminate|rewrite upd_ne in Y by auto]. eauto.
      * intros u k X. destruct (Nat.eq_dec u t) as [->|NU]; [rewrite upd_eq in X; discriminate|rewrite upd_ne in X by auto]. eauto.
    + destruct (A3 eq_refl) as [B1 B2]. repeat apply conj; try discriminate.
      * intros _. split; auto. intros u k X. destruct (Nat.eq_dec u t) as [->|NU]; [rewrite upd_eq in X; discriminate|rewrite upd_ne in X by auto]. eapply B2; eauto.
      * intros u v k k' X Y. destruct (Nat.eq_dec u t) as [->|NU]; [rewrite upd_eq in X; discriminate|rewrite upd_ne in X by auto]. exfalso. eapply B2; eauto.
      * intros u k X. reflexivity.
  - assert (B : h_built s = 0). { destruct (h_obj s) eqn:O; [apply A1; auto|apply A2; auto|]. exfalso. destruct (A3 eq_refl) as [_ B2]. eapply B2; eauto. }
    assert (NN : forall u k, upd (h_pc s) t (HBuilt m) u <> HNew k).
    { intros u k X. destruct (Nat.eq_dec u t) as [->|NU]; [rewrite upd_eq in X; discriminate|rewrite upd_ne in X by auto]. apply NU. eauto. }
    repeat apply conj; try discriminate.
    + intros _. split; [congruence|exact NN].
    + intros u v k l X. exfalso. eapply NN; eauto.
    + reflexivity.
  - assert (E : forall u v, v <> HIdle -> upd (h_pc s) t HIdle u = v -> h_pc s u = v).
    { intros u v V X. destruct (Nat.eq_dec u t) as [->|N]; [rewrite upd_eq in X; congruence|rewrite upd_ne in X by auto; exact X]. }
    repeat apply conj.
    + intros O. destruct (A1 O) as [B1 B2]. split; auto. intros u k X. apply E in X; [eapply B2; eauto|discriminate].
    + intros O. destruct (A2 O) as [B1 (u & k & B2)]. split; auto. exists u, k. destruct (Nat.eq_dec u t) as [->|N]; [destruct P; congruence|rewrite upd_ne; auto].
    + intros O. destruct (A3 O) as [B1 B2]. split; auto. intros u k X. apply E in X; [eapply B2; eauto|discriminate].
    + intros u v k l X Y. apply E in X; [|discriminate]. apply E in Y; [|discriminate]. eauto.
    + intros u k X. apply E in X; [|discriminate]. eauto.
    + intros u k X. apply E in X; [|discriminate]. eauto.
  - repeat apply conj; auto.
Qed.
Lemma hinv_reach ok s : hreach ok s -> hinv s.
Proof.
  induction 1; [|eapply hinv_step; eauto]. unfold hinv. cbn. repeat apply conj; try discriminate; auto. intros _. split; [reflexivity|discriminate].
Qed.
(** C61. For any number of modules and threads the object is constructed at most once, and nobody gets a reference before there is storage. *)
Theorem constructed_once : forall ok s, hreach ok s -> h_built s <= 1 /\ (h_built s = 1 <-> h_obj s = Constructed).
Proof.
  intros ok s R. destruct (hinv_reach ok s R) as (A1 & A2 & A3 & _). destruct (h_obj s); [destruct (A1 eq_refl)|destruct (A2 eq_refl)|destruct (A3 eq_refl)]; split; try lia; split; intros; try lia; try discriminate; auto.
Qed.

(** C61. If there is one module, every reference returned by get() is to a constructed object. *)
Definition minv (m0 : nat) (s : hstate) : Prop :=
  (forall t m, in_impl (h_pc s t) = Some m -> m = m0 /\ h_guard s m0 = GBusy) /\
  (forall t t' m m', in_impl (h_pc s t) = Some m -> in_impl (h_pc s t') = Some m' -> t = t') /\
  (h_guard s m0 = GReady -> h_obj s = Constructed) /\
  (h_guard s m0 = GNone -> h_obj s = NoStorage) /\
  (h_obj s <> NoStorage -> forall t m, h_pc s t <> HInit m) /\
  (forall t m, h_pc s t <> HOld m) /\
  (forall t o, In (t, o) (h_got s) -> o = Constructed).
Lemma one_module m0 s : hreach (eq m0) s -> minv m0 s /\ hinv s.
Proof.
  intros R. split; [|eapply hinv_reach; eauto]. induction R as [|s s' R IH ST US]; [unfold minv; cbn; repeat apply conj; intros; try discriminate; try contradiction; auto|].
  destruct (hinv_reach _ s R) as (A1 & A2 & A3 & A4 & A5 & A6). destruct IH as (B1 & B2 & B3 & B4 & B5 & B6 & B7).
  destruct ST as [s t m P G|s t m P|s t m P|s t m P|s t m P G]; unfold minv, uses in *; cbn [h_obj h_built h_guard h_pc h_got] in *.
  - assert (m = m0). { destruct (Nat.eq_dec m0 m); auto. specialize (US m n). rewrite upd_eq in US. discriminate. } subst m.
    assert (NI : forall u, in_impl (h_pc s u) = None). { intros u. destruct (in_impl (h_pc s u)) eqn:E; [|reflexivity]. destruct (B1 u n E). congruence. }
    rewrite upd_eq. repeat apply conj; [| |discriminate|discriminate| | |exact B7].
    + intros u k E. destruct (Nat.eq_dec u t) as [->|NU]; [rewrite upd_eq in E; cbn in E; split; congruence|rewrite upd_ne in E by auto; rewrite NI in E; discriminate].
    + intros u v k l X Y. destruct (Nat.eq_dec u t) as [->|NU]; [|rewrite upd_ne in X by auto; rewrite NI in X; discriminate].
      destruct (Nat.eq_dec v t) as [->|NV]; [reflexivity|rewrite upd_ne in Y by auto; rewrite NI in Y; discriminate].
    + intros O. exfalso. exact (O (B4 G)).
    + intros u k E. destruct (Nat.eq_dec u t) as [->|NU]; [rewrite upd_eq in E; discriminate|rewrite upd_ne in E by auto; eapply B6; eauto].
  - assert (IT : in_impl (h_pc s t) = Some m) by (rewrite P; reflexivity). destruct (B1 t m IT) as [-> GB].
    assert (ON : h_obj s = NoStorage). { destruct (h_obj s) eqn:O; auto; exfalso; eapply B5; eauto; discriminate. } rewrite ON in *.
    assert (ONLY : forall u k, u <> t -> in_impl (h_pc s u) = Some k -> False) by (intros u k N E; apply N; eauto).
    repeat apply conj; auto.
    + intros u k E. destruct (Nat.eq_dec u t) as [->|NU]; [rewrite upd_eq in E; cbn in E; split; congruence|rewrite upd_ne in E by auto; exfalso; eauto].
    + intros u v k l X Y. destruct (Nat.eq_dec u t) as [->|NU]; [|rewrite upd_ne in X by auto; exfalso; eauto].
      destruct (Nat.eq_dec v t) as [->|NV]; [reflexivity|rewrite upd_ne in Y by auto; exfalso; eauto].
    + rewrite GB. discriminate.
    + rewrite GB. discriminate.
    + intros _ u k E. destruct (Nat.eq_dec u t) as [->|NU]; [rewrite upd_eq in E; discriminate|rewrite upd_ne in E by auto]. eapply (ONLY u k NU). rewrite E. reflexivity.
    + intros u k E. destruct (Nat.eq_dec u t) as [->|NU]; [rewrite upd_eq in E; discriminate|rewrite upd_ne in E by auto]. eapply B6; eauto.
  - assert (IT : in_impl (h_pc s t) = Some m) by (rewrite P; reflexivity). destruct (B1 t m IT) as [-> GB].
    assert (ONLY : forall u k, u <> t -> in_impl (h_pc s u) = Some k -> False) by (intros u k N E; apply N; eauto).
    repeat apply conj; auto; try discriminate.
    + intros u k E. destruct (Nat.eq_dec u t) as [->|NU]; [rewrite upd_eq in E; cbn in E; split; congruence|rewrite upd_ne in E by auto; exfalso; eauto].
    + intros u v k l X Y. destruct (Nat.eq_dec u t) as [->|NU]; [|rewrite upd_ne in X by auto; exfalso; eauto].
      destruct (Nat.eq_dec v t) as [->|NV]; [reflexivity|rewrite upd_ne in Y by auto; exfalso; eauto].
    + rewrite GB. discriminate.
    + intros _ u k E. destruct (Nat.eq_dec u t) as [->|NU]; [rewrite upd_eq in E; discriminate|rewrite upd_ne in E by auto]. eapply (ONLY u k NU). rewrite E. reflexivity.
    + intros u k E. destruct (Nat.eq_dec u t) as [->|NU]; [rewrite upd_eq in E; discriminate|rewrite upd_ne in E by auto]. eapply B6; eauto.
  - assert (PB : h_pc s t = HBuilt m) by (destruct P as [P|P]; auto; exfalso; eapply B6; eauto).
    assert (IT : in_impl (h_pc s t) = Some m) by (rewrite PB; reflexivity). destruct (B1 t m IT) as [-> GB].
    assert (ONLY : forall u k, u <> t -> in_impl (h_pc s u) = Some k -> False) by (intros u k N E; apply N; eauto).
    assert (OC : h_obj s = Constructed) by eauto.
    assert (NI : forall u k, in_impl (upd (h_pc s) t HIdle u) = Some k -> False).
    { intros u k E. destruct (Nat.eq_dec u t) as [->|NU]; [rewrite upd_eq in E; discriminate|rewrite upd_ne in E by auto; eauto]. }
    rewrite upd_eq. repeat apply conj; auto; try discriminate.
    + intros u k E. exfalso. eauto.
    + intros u v k l X. exfalso. eauto.
    + intros _ u k E. eapply (NI u k). rewrite E. reflexivity.
    + intros u k E. eapply (NI u k). rewrite E. reflexivity.
    + intros u o I. apply in_app_or in I as [I|[I|[]]]; [eauto|]. injection I as <- <-. exact OC.
  - assert (m = m0). { destruct (Nat.eq_dec m0 m); auto. specialize (US m n). congruence. } subst m.
    repeat apply conj; auto. intros u o I. apply in_app_or in I as [I|[I|[]]]; [eauto|]. injection I as <- <-. auto.
Qed.
Theorem get_constructed_partial : forall m0 s, hreach (eq m0) s -> forall t o, In (t, o) (h_got s) -> o = Constructed.
Proof. intros m0 s R. destruct (one_module m0 s R) as ((_ & _ & _ & _ & _ & _ & B) & _). exact B. Qed.

(** With two modules it is false: thread 2, in module 1, gets a reference to storage in which thread 1, in module 0, has not yet constructed the object. *)
Definition g1 := HState (h_obj holder_init) (h_built holder_init) (upd (h_guard holder_init) 0 GBusy) (upd (h_pc holder_init) 1 (HInit 0)) (h_got holder_init).
Definition g2 := HState Raw (h_built g1) (h_guard g1) (upd (h_pc g1) 1 (HNew 0)) (h_got g1).
Definition g3 := HState (h_obj g2) (h_built g2) (upd (h_guard g2) 1 GBusy) (upd (h_pc g2) 2 (HInit 1)) (h_got g2).
Definition g4 := HState Raw (h_built g3) (h_guard g3) (upd (h_pc g3) 2 (HOld 1)) (h_got g3).
Definition g5 := HState (h_obj g4) (h_built g4) (upd (h_guard g4) 1 GReady) (upd (h_pc g4) 2 HIdle) (h_got g4 ++ [(2, h_obj g4)]).
Theorem get_constructed_refuted : exists s, hreach (fun m => m < 2) s /\ In (2, Raw) (h_got s).
Proof.
  exists g5. assert (UG : forall m, ~ m < 2 -> h_guard g5 m = GNone /\ h_guard g4 m = GNone /\ h_guard g3 m = GNone /\ h_guard g2 m = GNone /\ h_guard g1 m = GNone).
  { intros m N. destruct m as [|[|m]]; try lia. repeat split. }
  split; [|left; reflexivity].
  apply (hreach_step _ g4); [|exact (h_finish g4 2 1 (or_introl eq_refl))|intros m N; apply UG; exact N].
  apply (hreach_step _ g3); [|exact (h_fetch g3 2 1 eq_refl)|intros m N; apply UG; exact N].
  apply (hreach_step _ g2); [|exact (h_enter g2 2 1 eq_refl eq_refl)|intros m N; apply UG; exact N].
  apply (hreach_step _ g1); [|exact (h_fetch g1 1 0 eq_refl)|intros m N; apply UG; exact N].
  apply (hreach_step _ holder_init); [constructor|exact (h_enter holder_init 1 0 eq_refl eq_refl)|intros m N; apply UG; exact N].
Qed.

(** * Non-vacuity: two threads ask for type 5 at the same time; a third for type 6, where the first allocation fails. *)
Definition w1 := FState (f_map fw_init) (f_heap fw_init) (f_mutex fw_init) (upd (f_pc fw_init) 1 (FWait 5 16)) (f_log fw_init).
Definition w2 := FState (f_map w1) (f_heap w1) (f_mutex w1) (upd (f_pc w1) 2 (FWait 5 16)) (f_log w1).
Definition w3 := FState (f_map w2) (f_heap w2) (Some 2) (upd (f_pc w2) 2 (FLocked 5 16)) (f_log w2).
Definition w4 := FState (upd (f_map w3) 5 Null) (f_heap w3) (f_mutex w3) (upd (f_pc w3) 2 (FEmplaced 5 16)) (f_log w3).
Definition w5 := FState (upd (f_map w4) 5 (Has 1000)) ((1000, 16) :: f_heap w4) (f_mutex w4) (upd (f_pc w4) 2 (FDone 5 (Some 1000) true)) (f_log w4).
Definition w6 := FState (f_map w5) (f_heap w5) None (upd (f_pc w5) 2 FIdle) (f_log w5 ++ [Returned 2 5 (Some 1000) true]).
Definition w7 := FState (f_map w6) (f_heap w6) (Some 1) (upd (f_pc w6) 1 (FLocked 5 16)) (f_log w6).
Definition w8 := FState (f_map w7) (f_heap w7) (f_mutex w7) (upd (f_pc w7) 1 (FDone 5 (slot_addr (f_map w7 5)) false)) (f_log w7).
Definition w9 := FState (f_map w8) (f_heap w8) None (upd (f_pc w8) 1 FIdle) (f_log w8 ++ [Returned 1 5 (Some 1000) false]).
Example registry_run : freach w9 /\ results 5 (f_log w9) = [(Some 1000, true); (Some 1000, false)] /\ freach w4 /\ f_pc w4 2 = FEmplaced 5 16.
Proof.
  assert (R4 : freach w4).
  { apply (freach_step w3); [|exact (f_emplace_new w3 2 5 16 eq_refl eq_refl)]. apply (freach_step w2); [|exact (f_lock w2 2 5 16 eq_refl eq_refl)].
    apply (freach_step w1); [|exact (f_call w1 2 5 16 eq_refl)]. apply (freach_step fw_init); [constructor|exact (f_call fw_init 1 5 16 eq_refl)]. }
  split; [|split; [reflexivity|split; [exact R4|reflexivity]]].
  apply (freach_step w8); [|exact (f_return w8 1 5 (Some 1000) false eq_refl)].
  apply (freach_step w7); [|apply (f_emplace_old w7 1 5 16 eq_refl); discriminate].
  apply (freach_step w6); [|exact (f_lock w6 1 5 16 eq_refl eq_refl)].
  apply (freach_step w5); [|exact (f_return w5 2 5 (Some 1000) true eq_refl)].
  apply (freach_step w4); [exact R4|]. apply (f_alloc w4 2 5 16 1000 eq_refl). cbn. auto.
Qed.

(** The same run, every caller asking for 16 bytes; and in the middle of it, when thread 2 holds the mutex, the call of thread 1 can still return. *)
Example registry_run_sized : freach_sized (fun _ => 16) w9 /\ In (1000, 16) (f_heap w9) /\ f_mutex w4 = Some 2 /\ calls (f_pc w4 1) = Some 5.
Proof.
  split; [|repeat split; cbn; auto].
  assert (U : forall (f : thread -> fpc) t v u tp n, upd f t v u = FWait tp n -> v = FWait tp n \/ f u = FWait tp n).
  { intros f t v u tp n E. destruct (Nat.eq_dec u t) as [->|N]; [rewrite upd_eq in E; auto|rewrite upd_ne in E by auto; auto]. }
  assert (S0 : forall u tp n, f_pc fw_init u = FWait tp n -> n = 16) by (cbn; discriminate).
  assert (S1 : forall u tp n, f_pc w1 u = FWait tp n -> n = 16) by (intros u tp n E; apply U in E as [E|E]; [congruence|eauto]).
  assert (S2 : forall u tp n, f_pc w2 u = FWait tp n -> n = 16) by (intros u tp n E; apply U in E as [E|E]; [congruence|eauto]).
  assert (S3 : forall u tp n, f_pc w3 u = FWait tp n -> n = 16) by (intros u tp n E; apply U in E as [E|E]; [congruence|eauto]).
  assert (S4 : forall u tp n, f_pc w4 u = FWait tp n -> n = 16) by (intros u tp n E; apply U in E as [E|E]; [congruence|eauto]).
  assert (S5 : forall u tp n, f_pc w5 u = FWait tp n -> n = 16) by (intros u tp n E; apply U in E as [E|E]; [congruence|eauto]).
  assert (S6 : forall u tp n, f_pc w6 u = FWait tp n -> n = 16) by (intros u tp n E; apply U in E as [E|E]; [congruence|eauto]).
  assert (S7 : forall u tp n, f_pc w7 u = FWait tp n -> n = 16) by (intros u tp n E; apply U in E as [E|E]; [congruence|eauto]).
  assert (S8 : forall u tp n, f_pc w8 u = FWait tp n -> n = 16) by (intros u tp n E; apply U in E as [E|E]; [congruence|eauto]).
  assert (S9 : forall u tp n, f_pc w9 u = FWait tp n -> n = 16) by (intros u tp n E; apply U in E as [E|E]; [congruence|eauto]).
  apply (fsized_step _ w8); [|exact (f_return w8 1 5 (Some 1000) false eq_refl)|exact S9].
  apply (fsized_step _ w7); [|apply (f_emplace_old w7 1 5 16 eq_refl); discriminate|exact S8].
  apply (fsized_step _ w6); [|exact (f_lock w6 1 5 16 eq_refl eq_refl)|exact S7].
  apply (fsized_step _ w5); [|exact (f_return w5 2 5 (Some 1000) true eq_refl)|exact S6].
  apply (fsized_step _ w4); [|apply (f_alloc w4 2 5 16 1000 eq_refl); cbn; auto|exact S5].
  apply (fsized_step _ w3); [|exact (f_emplace_new w3 2 5 16 eq_refl eq_refl)|exact S4].
  apply (fsized_step _ w2); [|exact (f_lock w2 2 5 16 eq_refl eq_refl)|exact S3].
  apply (fsized_step _ w1); [|exact (f_call w1 2 5 16 eq_refl)|exact S2].
  apply (fsized_step _ fw_init); [constructor|exact (f_call fw_init 1 5 16 eq_refl)|exact S1].
Qed.

(** One module, two threads: thread 1 constructs, then thread 2 gets the same object. *)
Definition k3 := HState Constructed (S (h_built g2)) (h_guard g2) (upd (h_pc g2) 1 (HBuilt 0)) (h_got g2).
Definition k4 := HState (h_obj k3) (h_built k3) (upd (h_guard k3) 0 GReady) (upd (h_pc k3) 1 HIdle) (h_got k3 ++ [(1, h_obj k3)]).
Definition k5 := HState (h_obj k4) (h_built k4) (h_guard k4) (h_pc k4) (h_got k4 ++ [(2, h_obj k4)]).
Example holder_run : hreach (eq 0) k5 /\ h_got k5 = [(1, Constructed); (2, Constructed)] /\ h_built k5 = 1.
Proof.
  assert (UG : forall m, 0 <> m -> h_guard k5 m = GNone /\ h_guard k4 m = GNone /\ h_guard k3 m = GNone /\ h_guard g2 m = GNone /\ h_guard g1 m = GNone).
  { intros m N. destruct m as [|m]; [congruence|]. repeat split. }
  split; [|split; reflexivity].
  apply (hreach_step _ k4); [|exact (h_fast k4 2 0 eq_refl eq_refl)|intros m N; apply UG; exact N].
  apply (hreach_step _ k3); [|exact (h_finish k3 1 0 (or_intror eq_refl))|intros m N; apply UG; exact N].
  apply (hreach_step _ g2); [|exact (h_construct g2 1 0 eq_refl)|intros m N; apply UG; exact N].
  apply (hreach_step _ g1); [|exact (h_fetch g1 1 0 eq_refl)|intros m N; apply UG; exact N].
  apply (hreach_step _ holder_init); [constructor|exact (h_enter holder_init 1 0 eq_refl eq_refl)|intros m N; apply UG; exact N].
Qed.

Print Assumptions one_storage_per_type.
Print Assumptions distinct_storage.
Print Assumptions storage_allocated.
Print Assumptions failure_recoverable.
Print Assumptions fetch_returns.
Print Assumptions storage_size.
Print Assumptions constructed_once.
Print Assumptions get_constructed_partial.
Print Assumptions get_constructed_refuted.
