(** Concurrent calls of pow(): invariants. *)
From Coq Require Import List Arith Bool Lia.
From Verif Require Import PowConc.
Import ListNotations.

Definition fwork (f : frame) : nat := 1 + (if f_need f then 1 else 0) + list_sum (map work_act (f_rest f)).
Definition swork (st : cstate) : nat := list_sum (map (fun e => work (snd e)) (pool st)) + list_sum (map (fun s => list_sum (map fwork s)) (stacks st)).
Lemma list_sum_app' l m : list_sum (l ++ m) = list_sum l + list_sum m.
Proof. induction l as [|a l IH]; cbn; [reflexivity|]. unfold list_sum in *. cbn. lia. Qed.
Lemma start_work id p t : S (fwork (start id p t)) = work t.
Proof. destruct t as [lk acts]. unfold fwork, start. cbn [f_need f_rest]. change (work (Task lk acts)) with (2 + (if lk then 1 else 0) + list_sum (map work_act acts)). destruct lk; lia. Qed.

Lemma work_fork ts : work_act (Fork ts) = 1 + list_sum (map work ts). Proof. reflexivity. Qed.
Lemma work_call t : work_act (Call t) = 1 + work t. Proof. reflexivity. Qed.
Lemma sum_cons a l : list_sum (a :: l) = a + list_sum l. Proof. reflexivity. Qed.
Lemma fwork_frame i p nd h r : fwork (Frame i p nd h r) = 1 + (if nd then 1 else 0) + list_sum (map work_act r). Proof. reflexivity. Qed.
Lemma step_work steals st st' : cstep steals st st' -> swork st' < swork st.
Proof.
  intros H. destruct H as [o p1 e p2 l1 s l2 n st H|p l1 f s l2 n H|o p l1 f ts r s l2 n st H R O|o p l1 f t r s l2 n st H R O|o p l1 f s l2 n st H R O];
    try unfold st; unfold swork; cbn [pool stacks]; rewrite ?map_app, ?list_sum_app'; cbn [map]; rewrite ?sum_cons, ?list_sum_app'.
  - cbn [map]. rewrite ?sum_cons. pose proof (start_work n (fst e) (snd e)). lia.
  - rewrite fwork_frame. assert (EF : fwork f = 2 + list_sum (map work_act (f_rest f))) by (unfold fwork; rewrite H; reflexivity). lia.
  - rewrite fwork_frame. assert (EF : fwork f = 1 + list_sum (map work_act (f_rest f))) by (unfold fwork; rewrite H; reflexivity). rewrite R in EF. cbn [map] in EF. rewrite sum_cons, work_fork in EF. rewrite map_map. rewrite (map_ext (fun x => work (snd (f_id f, x))) work) by reflexivity. lia.
  - rewrite fwork_frame. pose proof (start_work n (f_id f) t). assert (EF : fwork f = 1 + list_sum (map work_act (f_rest f))) by (unfold fwork; rewrite H; reflexivity). rewrite R in EF. cbn [map] in EF. rewrite sum_cons, work_call in EF. lia.
  - assert (EF : fwork f >= 1) by (unfold fwork; lia). lia.
Qed.

(** * The shape of the stacks *)
Definition pure (f : frame) : Prop := f_need f = false /\ f_holds f = false /\ Forall lock_free_act (f_rest f).
Definition plain (f : frame) : Prop := f_need f = false /\ f_holds f = false /\ Forall direct_act (f_rest f).
Definition locking (f : frame) : Prop := Forall lock_free_act (f_rest f) /\ (f_need f = true /\ f_holds f = false \/ f_need f = false /\ f_holds f = true).
(** Functions called one by the other: each is the child of the one below. *)
Fixpoint chain (s : list frame) : Prop := match s with [] => True | f :: s' => f_parent f = match s' with [] => 0 | g :: _ => f_id g end /\ chain s' end.
(** Tasks, above functions of the program, of which the innermost may be pow(). *)
Definition stack_ok (s : list frame) : Prop := exists ps cs, s = ps ++ cs /\ Forall pure ps /\ chain cs /\
  (Forall plain cs \/ exists f ds, cs = f :: ds /\ locking f /\ Forall plain ds /\ (f_need f = true -> ps = [])).
Fixpoint descending (s : list frame) : Prop := match s with [] => True | f :: s' => f_parent f < f_id f /\ Forall (fun g => f_id g < f_id f) s' /\ descending s' end.
Record inv (st : cstate) : Prop := {
  i_pool : Forall (fun e => lock_free (snd e) /\ exists s f, In s (stacks st) /\ In f s /\ f_id f = fst e) (pool st);
  i_stack : Forall stack_ok (stacks st);
  i_desc : Forall descending (stacks st);
  i_next : Forall (fun f => 0 < f_id f < next st) (concat (stacks st));
  i_nodup : NoDup (map f_id (concat (stacks st)))
}.
Record excl (st : cstate) : Prop := {
  e_next : Forall (fun f => f_id f < next st) (concat (stacks st));
  e_nodup : NoDup (map f_id (concat (stacks st)));
  e_need : Forall (fun f => f_need f = true -> f_holds f = false) (concat (stacks st));
  e_owner : forall f, In f (concat (stacks st)) -> f_holds f = true -> owner st = Some (f_id f);
  e_held : forall i, owner st = Some i -> exists f, In f (concat (stacks st)) /\ f_id f = i /\ f_holds f = true
}.

Lemma concat_mid {A} (l1 : list (list A)) s l2 : concat (l1 ++ s :: l2) = concat l1 ++ s ++ concat l2.
Proof. rewrite concat_app. reflexivity. Qed.
Lemma Forall_mid {A} (P : A -> Prop) l1 s l2 : Forall P (l1 ++ s :: l2) <-> Forall P l1 /\ P s /\ Forall P l2.
Proof. rewrite Forall_app, Forall_cons_iff. tauto. Qed.
Lemma In_mid {A} (x : A) l1 s l2 : In x (l1 ++ s :: l2) <-> In x l1 \/ x = s \/ In x l2.
Proof. rewrite in_app_iff. cbn. intuition congruence. Qed.
Lemma In_cmid {A} (x : A) l1 s l2 : In x (concat (l1 ++ s :: l2)) <-> In x (concat l1) \/ In x s \/ In x (concat l2).
Proof. rewrite concat_mid, !in_app_iff. tauto. Qed.
Lemma ids_mid l1 s l2 : map f_id (concat (l1 ++ s :: l2)) = map f_id (concat l1) ++ map f_id s ++ map f_id (concat l2).
Proof. rewrite concat_mid, !map_app. reflexivity. Qed.

Lemma nodup_push (A B C : list nat) n : NoDup (A ++ B ++ C) -> Forall (fun i => i < n) (A ++ B ++ C) -> NoDup (A ++ (n :: B) ++ C).
Proof.
  intros N F. cbn [app]. apply NoDup_Add with (a := n) (l := A ++ B ++ C).
  - apply Add_app.
  - split; [exact N|]. intros I. rewrite Forall_forall in F. apply F in I. lia.
Qed.
Lemma nodup_pop (A B C : list nat) n : NoDup (A ++ (n :: B) ++ C) -> NoDup (A ++ B ++ C) /\ ~ In n (A ++ B ++ C).
Proof. cbn [app]. intros N. apply NoDup_remove in N. exact N. Qed.

(** * Mutual exclusion, whatever the programs *)
Lemma ids_lt st : Forall (fun f => f_id f < next st) (concat (stacks st)) -> Forall (fun i => i < next st) (map f_id (concat (stacks st))).
Proof. intros F. rewrite Forall_map. exact F. Qed.
Lemma start_fields id p t : f_id (start id p t) = id /\ f_parent (start id p t) = p /\ f_holds (start id p t) = false.
Proof. destruct t. cbn. auto. Qed.
Lemma excl_step steals st st' : cstep steals st st' -> excl st -> excl st'.
Proof.
  intros H [E1 E2 E3 E4 E5]. pose proof (ids_lt st E1) as E1'. destruct H as [o p1 e p2 l1 s l2 n st H|p l1 f s l2 n H|o p l1 f ts r s l2 n st H R O|o p l1 f t r s l2 n st H R O|o p l1 f s l2 n st H R O];
    try unfold st in *; cbn [owner pool stacks next] in *; rewrite ids_mid in E1', E2; rewrite concat_mid, !Forall_app in E1, E3.
  - destruct (start_fields n (fst e) (snd e)) as (S1 & S2 & S3). constructor; cbn [owner pool stacks next].
    + rewrite concat_mid, !Forall_app, Forall_cons_iff, S1. repeat split; try lia; apply Forall_impl with (P := fun f => f_id f < n); try tauto; intros; lia.
    + rewrite ids_mid. cbn [map]. rewrite S1. apply nodup_push; assumption.
    + rewrite concat_mid, !Forall_app, Forall_cons_iff. repeat split; try tauto.
    + intros f I HF. apply In_cmid in I. cbn [In] in I. assert (I' : f = start n (fst e) (snd e) \/ In f (concat (l1 ++ s :: l2))) by (rewrite In_cmid; destruct I as [I|[[I|I]|I]]; auto). destruct I' as [->|I']; [congruence|auto].
    + intros i HO. destruct (E5 i HO) as (f & I & J). exists f. split; [|exact J]. apply In_cmid in I. apply In_cmid. cbn [In]. tauto.
  - assert (NH : forall g, In g (concat (l1 ++ (f :: s) :: l2)) -> f_holds g = false). { intros g I. destruct (f_holds g) eqn:HG; [|reflexivity]. specialize (E4 g I HG). discriminate. }
    rewrite Forall_cons_iff in E1, E3. constructor; cbn [owner pool stacks next].
    + rewrite concat_mid, !Forall_app, Forall_cons_iff. cbn [f_id]. tauto.
    + rewrite ids_mid. cbn [map f_id] in *. exact E2.
    + rewrite concat_mid, !Forall_app, Forall_cons_iff. cbn [f_need]. split; [tauto|]. split; [split; [discriminate|tauto]|tauto].
    + intros g I HG. apply In_cmid in I. cbn [In] in I. destruct I as [I|[[I|I]|I]]; [|subst g; reflexivity| |]; exfalso; rewrite (NH g) in HG by (apply In_cmid; cbn [In]; tauto); discriminate.
    + intros i [= <-]. eexists. split; [apply In_cmid; right; left; left; reflexivity|]. split; reflexivity.
  - rewrite Forall_cons_iff in E1, E3. constructor; cbn [owner pool stacks next].
    + rewrite concat_mid, !Forall_app, Forall_cons_iff. cbn [f_id]. tauto.
    + rewrite ids_mid. cbn [map f_id] in *. exact E2.
    + rewrite concat_mid, !Forall_app, Forall_cons_iff. cbn [f_need]. split; [tauto|]. split; [split; [discriminate|tauto]|tauto].
    + intros g I HG. apply In_cmid in I. cbn [In] in I. destruct I as [I|[[I|I]|I]]; [|subst g; cbn [f_id f_holds] in *; apply (E4 f); [apply In_cmid; cbn [In]; tauto|exact HG]| |]; (apply (E4 g); [apply In_cmid; cbn [In]; tauto|exact HG]).
    + intros i HO. destruct (E5 i HO) as (g & I & J). apply In_cmid in I. cbn [In] in I. destruct I as [I|[[<-|I]|I]].
      * exists g. split; [apply In_cmid; cbn [In]; tauto|exact J].
      * eexists. split; [apply In_cmid; right; left; left; reflexivity|]. exact J.
      * exists g. split; [apply In_cmid; cbn [In]; tauto|exact J].
      * exists g. split; [apply In_cmid; cbn [In]; tauto|exact J].
  - destruct (start_fields n (f_id f) t) as (S1 & S2 & S3). rewrite Forall_cons_iff in E1, E3. constructor; cbn [owner pool stacks next].
    + rewrite concat_mid, !Forall_app, !Forall_cons_iff, S1. cbn [f_id]. repeat split; try lia; apply Forall_impl with (P := fun f => f_id f < n); try tauto; intros; lia.
    + rewrite ids_mid. cbn [map]. rewrite S1. apply nodup_push; assumption.
    + rewrite concat_mid, !Forall_app, !Forall_cons_iff. cbn [f_need]. split; [tauto|]. split; [split; [auto|split; [discriminate|tauto]]|tauto].
    + intros g I HG. apply In_cmid in I. cbn [In] in I. destruct I as [I|[[I|[I|I]]|I]]; [|subst g; congruence|subst g; cbn [f_id f_holds] in *; apply (E4 f); [apply In_cmid; cbn [In]; tauto|exact HG]| |]; (apply (E4 g); [apply In_cmid; cbn [In]; tauto|exact HG]).
    + intros i HO. destruct (E5 i HO) as (g & I & J). apply In_cmid in I. cbn [In] in I. destruct I as [I|[[<-|I]|I]].
      * exists g. split; [apply In_cmid; cbn [In]; tauto|exact J].
      * eexists. split; [apply In_cmid; right; left; right; left; reflexivity|]. exact J.
      * exists g. split; [apply In_cmid; cbn [In]; tauto|exact J].
      * exists g. split; [apply In_cmid; cbn [In]; tauto|exact J].
  - cbn [map] in E2. apply nodup_pop in E2 as [N2 NI]. rewrite Forall_cons_iff in E1, E3.
    assert (FR : forall g, In g (concat (l1 ++ s :: l2)) -> f_id g <> f_id f). { intros g I E. apply NI. rewrite <- E, <- ids_mid. apply in_map. exact I. }
    assert (OLD : forall g, In g (concat (l1 ++ s :: l2)) -> In g (concat (l1 ++ (f :: s) :: l2))) by (intros g; rewrite !In_cmid; cbn [In]; tauto).
    constructor; cbn [owner pool stacks next].
    + rewrite concat_mid, !Forall_app. tauto.
    + rewrite ids_mid. exact N2.
    + rewrite concat_mid, !Forall_app. tauto.
    + intros g I HG. destruct (f_holds f) eqn:HF; [|apply (E4 g (OLD g I) HG)]. exfalso. assert (IF : In f (concat (l1 ++ (f :: s) :: l2))) by (apply In_cmid; cbn [In]; tauto).
      pose proof (E4 f IF HF) as A1. pose proof (E4 g (OLD g I) HG) as A2. apply (FR g I). congruence.
    + intros i HO. destruct (f_holds f) eqn:HF; [discriminate|]. destruct (E5 i HO) as (g & I & J1 & J2). exists g. split; [|auto]. apply In_cmid in I. cbn [In] in I. apply In_cmid. destruct I as [I|[[<-|I]|I]]; auto. congruence.
Qed.

(** * The initial state *)
Lemma threads_ids progs : forall id, map f_id (concat (threads id progs)) = seq id (length progs).
Proof. induction progs as [|t l IH]; intros id; cbn; [reflexivity|]. rewrite IH. destruct (start_fields id 0 t) as (-> & _). reflexivity. Qed.
Lemma threads_in progs : forall id f, In f (concat (threads id progs)) -> exists t i, In t progs /\ f = start i 0 t /\ id <= i < id + length progs.
Proof. induction progs as [|t l IH]; intros id f; cbn; [tauto|]. intros [<-|I]; [exists t, id; repeat split; auto; lia|]. apply IH in I as (t' & i & I & -> & B). exists t', i. repeat split; auto; lia. Qed.
Lemma threads_work progs : forall id, list_sum (map (fun s => list_sum (map fwork s)) (threads id progs)) + length progs = list_sum (map work progs).
Proof. induction progs as [|t l IH]; intros id; cbn [threads map length]; [reflexivity|]. rewrite !sum_cons. cbn [map]. rewrite ?sum_cons. specialize (IH (S id)). pose proof (start_work id 0 t). change (list_sum []) with 0. lia. Qed.
Lemma init_work progs : swork (init progs) <= list_sum (map work progs).
Proof. unfold swork, init. cbn [pool stacks map]. pose proof (threads_work progs 1). change (list_sum []) with 0. lia. Qed.
Lemma init_excl progs : excl (init progs).
Proof.
  constructor; cbn [init owner stacks next].
  - apply Forall_forall. intros f I. apply threads_in in I as (t & i & I & -> & B). destruct (start_fields i 0 t) as (-> & _). lia.
  - rewrite threads_ids. apply seq_NoDup.
  - apply Forall_forall. intros f I _. apply threads_in in I as (t & i & I & -> & B). apply start_fields.
  - intros f I HF. apply threads_in in I as (t & i & I & -> & B). destruct (start_fields i 0 t) as (_ & _ & E). congruence.
  - discriminate.
Qed.
Lemma threads_stacks progs : forall id s, In s (threads id progs) -> exists t i, In t progs /\ s = [start i 0 t] /\ id <= i.
Proof. induction progs as [|t l IH]; intros id s; cbn; [tauto|]. intros [<-|I]; [exists t, id; repeat split; auto|]. apply IH in I as (t' & i & I & -> & B). exists t', i. repeat split; auto; lia. Qed.
Lemma start_direct i p t : direct t -> plain (start i p t) \/ locking (start i p t).
Proof. intros D. destruct D as [acts D|acts D]; [left|right]; unfold plain, locking; cbn; auto. Qed.
Lemma start_pure i p t : lock_free t -> pure (start i p t).
Proof. intros D. destruct D as [acts D]. unfold pure; cbn; auto. Qed.
Lemma init_inv progs : Forall direct progs -> inv (init progs).
Proof.
  intros D. rewrite Forall_forall in D. pose proof (init_excl progs) as [E1 E2 _ _ _]. constructor; [constructor| | | |exact E2]; apply Forall_forall.
  - intros s I. apply threads_stacks in I as (t & i & I & -> & B). exists [], [start i 0 t]. split; [reflexivity|]. split; [constructor|]. split; [cbn; split; [apply start_fields|exact Logic.I]|].
    destruct (start_direct i 0 t (D t I)); [left; constructor; [assumption|constructor]|right]. exists (start i 0 t), []. split; [reflexivity|]. split; [assumption|]. split; [constructor|reflexivity].
  - intros s I. apply threads_stacks in I as (t & i & I & -> & B). destruct (start_fields i 0 t) as (S1 & S2 & _). cbn. rewrite S1, S2. repeat split; [lia|constructor].
  - intros f I. pose proof I as J. rewrite Forall_forall in E1. apply E1 in J. apply threads_in in I as (t & i & I & -> & B). destruct (start_fields i 0 t) as (S1 & _). rewrite S1 in *. split; [lia|exact J].
Qed.

(** * The shape is kept *)
Definition settled (s : list frame) : Prop := exists ps cs, s = ps ++ cs /\ Forall pure ps /\ chain cs /\
  (Forall plain cs \/ exists f ds, cs = f :: ds /\ locking f /\ Forall plain ds /\ f_need f = false).
Lemma settled_ok s : settled s -> stack_ok s.
Proof. intros (ps & cs & E & P & C & D). exists ps, cs. repeat (split; [assumption|]). destruct D as [D|(f & ds & D1 & D2 & D3 & D4)]; [left; exact D|right]. exists f, ds. repeat (split; [assumption|]). congruence. Qed.
Lemma settled_pure f s : pure f -> settled s -> settled (f :: s).
Proof. intros P (ps & cs & -> & PS & C & D). exists (f :: ps), cs. split; [reflexivity|]. split; [constructor; assumption|]. auto. Qed.
Lemma settled_plain s : Forall plain s -> chain s -> settled s.
Proof. intros P C. exists [], s. split; [reflexivity|]. split; [constructor|]. auto. Qed.
Lemma settled_locking f s : locking f -> f_need f = false -> Forall plain s -> chain (f :: s) -> settled (f :: s).
Proof. intros L N P C. exists [], (f :: s). split; [reflexivity|]. split; [constructor|]. split; [exact C|]. right. exists f, s. auto. Qed.
Lemma locking_ok f s : locking f -> Forall plain s -> chain (f :: s) -> stack_ok (f :: s).
Proof. intros L P C. exists [], (f :: s). split; [reflexivity|]. split; [constructor|]. split; [exact C|]. right. exists f, s. auto. Qed.
Lemma top_cases f s : stack_ok (f :: s) -> pure f /\ settled s \/ plain f /\ Forall plain s /\ chain (f :: s) \/ locking f /\ Forall plain s /\ chain (f :: s).
Proof.
  intros (ps & cs & E & P & C & D). destruct ps as [|g ps]; cbn in E.
  - subst cs. right. destruct D as [D|(g & ds & [= <- <-] & L & PL & _)]; [left|right; auto]. apply Forall_cons_iff in D as [D1 D2]. auto.
  - injection E as <- ->. apply Forall_cons_iff in P as [P1 P2]. left. split; [exact P1|]. exists ps, cs. repeat (split; [first [reflexivity|assumption]|]).
    destruct D as [D|(h & ds & D1 & D2 & D3 & D4)]; [left; exact D|right]. exists h, ds. repeat (split; [assumption|]). destruct (f_need h); [|reflexivity]. specialize (D4 eq_refl). discriminate.
Qed.
Lemma top_settled f s : stack_ok (f :: s) -> f_need f = false -> settled (f :: s).
Proof. intros S N. destruct (top_cases f s S) as [[P S']|[(P & Q & C)|(L & Q & C)]]; [apply settled_pure; assumption|apply settled_plain; [constructor; assumption|exact C]|apply settled_locking; assumption]. Qed.
Lemma chain_top f g s : f_id f = f_id g -> f_parent f = f_parent g -> chain (f :: s) -> chain (g :: s).
Proof. cbn. intros _ -> . auto. Qed.
Lemma none_outstanding st i : outstanding st i = false -> (forall e, In e (pool st) -> fst e <> i) /\ (forall s f, In s (stacks st) -> In f s -> f_parent f <> i).
Proof.
  unfold outstanding. intros H. apply orb_false_iff in H as [H1 H2]. split.
  - intros e I E. assert (T : existsb (fun e => fst e =? i) (pool st) = true) by (apply existsb_exists; exists e; split; [exact I|apply Nat.eqb_eq; exact E]). congruence.
  - intros s f I J E. assert (T : existsb (fun s => existsb (fun f => f_parent f =? i) s) (stacks st) = true).
    { apply existsb_exists. exists s. split; [exact I|]. apply existsb_exists. exists f. split; [exact J|apply Nat.eqb_eq; exact E]. } congruence.
Qed.
Lemma some_outstanding st i : outstanding st i = true -> (exists e, In e (pool st) /\ fst e = i) \/ (exists s f, In s (stacks st) /\ In f s /\ f_parent f = i).
Proof.
  unfold outstanding. intros H. apply orb_true_iff in H as [H|H]; [left|right]; apply existsb_exists in H as (x & I & H).
  - exists x. split; [exact I|apply Nat.eqb_eq; exact H].
  - apply existsb_exists in H as (f & J & H). exists x, f. split; [exact I|]. split; [exact J|apply Nat.eqb_eq; exact H].
Qed.
Lemma pool_keep (P : nat * task -> Prop) Q S S' : (forall e, In e Q -> P e /\ exists s f, In s S /\ In f s /\ f_id f = fst e) ->
  (forall s f, In s S -> In f s -> (exists e, In e Q /\ f_id f = fst e) -> exists s' f', In s' S' /\ In f' s' /\ f_id f' = f_id f) ->
  forall e, In e Q -> P e /\ exists s f, In s S' /\ In f s /\ f_id f = fst e.
Proof. intros H K e I. destruct (H e I) as (A & s & f & J1 & J2 & E). split; [exact A|]. destruct (K s f J1 J2) as (s' & f' & K1 & K2 & K3); [exists e; auto|]. exists s', f'. repeat (split; [assumption|]). congruence. Qed.

Lemma inv_step steals st st' : cstep steals st st' -> excl st' -> inv st -> inv st'.
Proof.
  intros H X' [I1 I2 I3 I4 _]. destruct X' as [_ X2 _ _ _]. rewrite Forall_forall in I1.
  destruct H as [o p1 e p2 l1 s l2 n st H|p l1 f s l2 n H|o p l1 f ts r s l2 n st H R O|o p l1 f t r s l2 n st H R O|o p l1 f s l2 n st H R O];
    try unfold st in *; cbn [owner pool stacks next] in *; rewrite Forall_mid in I2, I3; rewrite concat_mid, !Forall_app in I4; destruct I2 as (I2a & I2 & I2b), I3 as (I3a & I3 & I3b), I4 as (I4a & I4 & I4b).
  - destruct (start_fields n (fst e) (snd e)) as (S1 & S2 & S3). destruct (I1 e) as (LF & s0 & f0 & J0 & J0' & JE); [apply in_elt|].
    assert (B0 : 0 < f_id f0 < n). { apply In_mid in J0 as [J0|[->|J0]]; [rewrite Forall_forall in I4a; apply I4a, in_concat; eauto|rewrite Forall_forall in I4; apply I4, J0'|rewrite Forall_forall in I4b; apply I4b, in_concat; eauto]. }
    constructor; cbn [pool stacks next]; [|apply Forall_mid; split; [exact I2a|]; split; [|exact I2b]|apply Forall_mid; split; [exact I3a|]; split; [|exact I3b]| |exact X2].
    + apply Forall_forall. apply pool_keep with (S := l1 ++ s :: l2); [intros e' J; apply I1; rewrite in_app_iff in *; cbn [In]; tauto|].
      intros s1 f1 J1 J2 _. apply In_mid in J1 as [J1|[->|J1]]; [exists s1, f1|exists (start n (fst e) (snd e) :: s), f1|exists s1, f1]; (split; [apply In_mid; tauto|]); (split; [cbn; tauto|reflexivity]).
    + apply settled_ok, settled_pure; [apply start_pure, LF|]. destruct s as [|f s]; [apply settled_plain; [constructor|exact Logic.I]|]. apply top_settled; [exact I2|apply H].
    + cbn [descending]. rewrite S1, S2. split; [lia|]. split; [|exact I3]. eapply Forall_impl; [|exact I4]. cbn. intros; lia.
    + rewrite concat_mid, !Forall_app, Forall_cons_iff, S1. repeat split; try lia; (eapply Forall_impl; [|eassumption]); cbn; intros; lia.
  - constructor; cbn [pool stacks next]; [|apply Forall_mid; split; [exact I2a|]; split; [|exact I2b]|apply Forall_mid; split; [exact I3a|]; split; [|exact I3b]| |exact X2].
    + apply Forall_forall. apply pool_keep with (S := l1 ++ (f :: s) :: l2); [exact I1|].
      intros s1 f1 J1 J2 _. apply In_mid in J1 as [J1|[->|J1]]; [exists s1, f1; split; [apply In_mid; tauto|]; split; auto| |exists s1, f1; split; [apply In_mid; tauto|]; split; auto].
      destruct J2 as [<-|J2]; eexists; eexists; (split; [apply In_mid; right; left; reflexivity|]); [split; [left; reflexivity|reflexivity]|split; [right; exact J2|reflexivity]].
    + destruct (top_cases f s I2) as [[P S']|[(P & Q & C)|(L & Q & C)]]; [destruct P; congruence|destruct P; congruence|]. apply locking_ok; [|exact Q|eapply chain_top; [| |exact C]; reflexivity].
      destruct L as [L _]. split; [exact L|right; auto].
    + cbn [descending f_parent f_id] in *. exact I3.
    + rewrite concat_mid, !Forall_app, Forall_cons_iff. apply Forall_cons_iff in I4. cbn [f_id]. tauto.
  - assert (LF : Forall lock_free ts /\ settled (Frame (f_id f) (f_parent f) false (f_holds f) r :: s)).
    { destruct (top_cases f s I2) as [[(P1 & P2 & P3) S']|[((P1 & P2 & P3) & Q & C)|(L & Q & C)]].
      - rewrite R in P3. apply Forall_cons_iff in P3 as [P3 P4]. split; [inversion P3; assumption|]. apply settled_pure; [|exact S']. repeat split; [exact P2|exact P4].
      - rewrite R in P3. apply Forall_cons_iff in P3 as [P3 P4]. split; [inversion P3; assumption|]. apply settled_plain; [constructor; [|exact Q]|eapply chain_top; [| |exact C]; reflexivity]. repeat split; [exact P2|exact P4].
      - destruct L as [L LL]. rewrite R in L. apply Forall_cons_iff in L as [P3 P4]. split; [inversion P3; assumption|]. apply settled_locking; [|reflexivity|exact Q|eapply chain_top; [| |exact C]; reflexivity]. split; [exact P4|]. right. cbn. destruct LL as [LL|LL]; [destruct LL; congruence|tauto]. }
    destruct LF as [LF SO]. constructor; cbn [pool stacks next]; [|apply Forall_mid; split; [exact I2a|]; split; [|exact I2b]|apply Forall_mid; split; [exact I3a|]; split; [|exact I3b]| |exact X2].
    + apply Forall_forall. intros e J. apply in_app_iff in J as [J|J].
      * apply in_map_iff in J as (t & <- & J). rewrite Forall_forall in LF. split; [apply LF, J|]. eexists; eexists. split; [apply In_mid; right; left; reflexivity|]. split; [left; reflexivity|reflexivity].
      * revert e J. apply pool_keep with (S := l1 ++ (f :: s) :: l2); [exact I1|].
        intros s1 f1 J1 J2 _. apply In_mid in J1 as [J1|[->|J1]]; [exists s1, f1; split; [apply In_mid; tauto|]; split; auto| |exists s1, f1; split; [apply In_mid; tauto|]; split; auto].
        destruct J2 as [<-|J2]; eexists; eexists; (split; [apply In_mid; right; left; reflexivity|]); [split; [left; reflexivity|reflexivity]|split; [right; exact J2|reflexivity]].
    + apply settled_ok, SO.
    + cbn [descending f_parent f_id] in *. exact I3.
    + rewrite concat_mid, !Forall_app, Forall_cons_iff. apply Forall_cons_iff in I4. cbn [f_id]. tauto.
  - destruct (start_fields n (f_id f) t) as (S1 & S2 & S3). pose proof I4 as I4'. apply Forall_cons_iff in I4' as [B0 I4'].
    assert (SO : stack_ok (start n (f_id f) t :: Frame (f_id f) (f_parent f) false (f_holds f) r :: s)).
    { destruct (top_cases f s I2) as [[(P1 & P2 & P3) S']|[((P1 & P2 & P3) & Q & C)|(L & Q & C)]].
      - rewrite R in P3. apply Forall_cons_iff in P3 as [P3 P4]. apply settled_ok, settled_pure; [apply start_pure; inversion P3; assumption|]. apply settled_pure; [|exact S']. repeat split; [exact P2|exact P4].
      - rewrite R in P3. apply Forall_cons_iff in P3 as [P3 P4]. assert (PL : Forall plain (Frame (f_id f) (f_parent f) false (f_holds f) r :: s)) by (constructor; [repeat split; [exact P2|exact P4]|exact Q]).
        assert (CH : chain (start n (f_id f) t :: Frame (f_id f) (f_parent f) false (f_holds f) r :: s)) by (split; [exact S2|eapply chain_top; [| |exact C]; reflexivity]).
        destruct (start_direct n (f_id f) t) as [D|D]; [inversion P3; assumption|apply settled_ok, settled_plain; [constructor; assumption|exact CH]|apply locking_ok; assumption].
      - destruct L as [L LL]. rewrite R in L. apply Forall_cons_iff in L as [P3 P4]. apply settled_ok, settled_pure; [apply start_pure; inversion P3; assumption|]. apply settled_locking; [|reflexivity|exact Q|eapply chain_top; [| |exact C]; reflexivity]. split; [exact P4|]. right. cbn. destruct LL as [LL|LL]; [destruct LL; congruence|tauto]. }
    constructor; cbn [pool stacks next]; [|apply Forall_mid; split; [exact I2a|]; split; [|exact I2b]|apply Forall_mid; split; [exact I3a|]; split; [|exact I3b]| |exact X2].
    + apply Forall_forall. apply pool_keep with (S := l1 ++ (f :: s) :: l2); [exact I1|].
      intros s1 f1 J1 J2 _. apply In_mid in J1 as [J1|[->|J1]]; [exists s1, f1; split; [apply In_mid; tauto|]; split; auto| |exists s1, f1; split; [apply In_mid; tauto|]; split; auto].
      destruct J2 as [<-|J2]; eexists; eexists; (split; [apply In_mid; right; left; reflexivity|]); [split; [right; left; reflexivity|reflexivity]|split; [right; right; exact J2|reflexivity]].
    + exact SO.
    + cbn [descending] in I3. cbn [descending]. rewrite S1, S2. cbn [f_id f_parent]. split; [lia|]. split; [|exact I3]. constructor; [cbn; lia|]. eapply Forall_impl; [|exact I4']. cbn. intros; lia.
    + rewrite concat_mid, !Forall_app, !Forall_cons_iff, S1. cbn [f_id]. repeat split; try lia; (eapply Forall_impl; [|eassumption]); cbn; intros; lia.
  - pose proof (none_outstanding _ _ O) as [O1 _]. cbn [pool] in O1. constructor; cbn [pool stacks next]; [|apply Forall_mid; split; [exact I2a|]; split; [|exact I2b]|apply Forall_mid; split; [exact I3a|]; split; [|exact I3b]| |exact X2].
    + apply Forall_forall. apply pool_keep with (S := l1 ++ (f :: s) :: l2); [exact I1|].
      intros s1 f1 J1 J2 (e & JE & EE). apply In_mid in J1 as [J1|[->|J1]]; [exists s1, f1; split; [apply In_mid; tauto|]; split; auto| |exists s1, f1; split; [apply In_mid; tauto|]; split; auto].
      destruct J2 as [<-|J2]; [exfalso; apply (O1 e JE); congruence|]. exists s, f1. split; [apply In_mid; tauto|]. auto.
    + destruct (top_cases f s I2) as [[P S']|[(P & Q & C)|(L & Q & C)]]; [apply settled_ok, S'| |]; (apply settled_ok, settled_plain; [exact Q|apply C]).
    + apply I3.
    + rewrite concat_mid, !Forall_app. apply Forall_cons_iff in I4. tauto.
Qed.

(** * Progress *)
Definition ready (S : list (list frame)) : list frame := flat_map (fun s => match s with [] => [] | f :: _ => if f_need f then [] else [f] end) S.
Lemma ready_in S f : In f (ready S) <-> exists s, In (f :: s) S /\ f_need f = false.
Proof.
  unfold ready. rewrite in_flat_map. split.
  - intros (s & I & J). destruct s as [|g s]; [destruct J|]. destruct (f_need g) eqn:N; [destruct J|]. destruct J as [->|[]]. exists s. auto.
  - intros (s & I & N). exists (f :: s). split; [exact I|]. rewrite N. left. reflexivity.
Qed.
Lemma max_id (l : list frame) : l = [] \/ exists f, In f l /\ forall g, In g l -> f_id g <= f_id f.
Proof.
  induction l as [|a l [->|(f & I & M)]]; [left; reflexivity|right; exists a; split; [left; reflexivity|]; intros g [->|[]]; lia|right].
  destruct (Nat.le_gt_cases (f_id a) (f_id f)) as [L|L].
  - exists f. split; [right; exact I|]. intros g [<-|J]; [exact L|apply M, J].
  - exists a. split; [left; reflexivity|]. intros g [<-|J]; [lia|apply M in J; lia].
Qed.
Lemma desc_top f s g : descending (f :: s) -> In g (f :: s) -> f_id g <= f_id f.
Proof. intros (_ & F & _) [<-|I]; [lia|]. rewrite Forall_forall in F. apply F in I. lia. Qed.
Lemma desc_parent s : forall g, descending s -> In g s -> f_parent g < f_id g.
Proof. induction s as [|f s IH]; intros g; [intros _ []|]. intros (A & _ & D) [<-|I]; [exact A|apply IH; assumption]. Qed.
Lemma chain_parent cs : forall g, chain cs -> In g cs -> f_parent g = 0 \/ exists h c1 c2, cs = c1 ++ g :: h :: c2 /\ f_parent g = f_id h.
Proof.
  induction cs as [|f cs IH]; intros g; [intros _ []|]. intros [E C] [->|I].
  - destruct cs as [|h cs]; [left; exact E|right]. exists h, [], cs. split; [reflexivity|exact E].
  - destruct (IH g C I) as [Z|(h & c1 & c2 & -> & P)]; [left; exact Z|right]. exists h, (f :: c1), c2. split; [reflexivity|exact P].
Qed.
Lemma nodup_twice {A B} (h : A -> B) l1 (x : A) s l2 s2 y : NoDup (map h (concat (l1 ++ (x :: s) :: l2))) -> In s2 (l1 ++ (x :: s) :: l2) -> In y s2 -> h y = h x -> s2 = x :: s.
Proof.
  intros N I J E. apply In_mid in I as [I|[I|I]]; [|exact I|]; exfalso; rewrite concat_mid, !map_app in N; cbn [map app] in N; apply NoDup_remove_2 in N; apply N; rewrite <- E; rewrite !in_app_iff.
  - left. apply in_map, in_concat. eauto.
  - right; right. apply in_map, in_concat. eauto.
Qed.
Lemma progress steals st : inv st -> excl st -> finished st \/ exists st', cstep steals st st'.
Proof.
  intros [I1 I2 I3 I4 I5] [_ _ _ _ X5]. rewrite Forall_forall in I1, I2, I3, I4. destruct st as [o p S n]. cbn [owner pool stacks next] in *.
  destruct (max_id (ready S)) as [NR|(f & IR & M)].
  - assert (ALL : forall f s, In (f :: s) S -> f_need f = true). { intros f s I. destruct (f_need f) eqn:N; [reflexivity|]. assert (T : In f (ready S)) by (apply ready_in; eauto). rewrite NR in T. destruct T. }
    destruct (concat S) as [|f0 cs] eqn:CS.
    + left. split; cbn [pool stacks].
      * destruct p as [|e p]; [reflexivity|exfalso]. destruct (I1 e (or_introl eq_refl)) as (_ & s & f & A & B & _). assert (T : In f (concat S)) by (apply in_concat; eauto). rewrite CS in T. destruct T.
      * apply Forall_forall. intros s I. destruct s as [|f s]; [reflexivity|exfalso]. assert (T : In f (concat S)) by (apply in_concat; exists (f :: s); split; [exact I|left; reflexivity]). rewrite CS in T. destruct T.
    + right. destruct o as [i|].
      * exfalso. destruct (X5 i eq_refl) as (g & J & _ & HG). rewrite <- CS in J. apply in_concat in J as (s & J & K). destruct s as [|h s]; [destruct K|]. pose proof (ALL h s J) as N.
        destruct (top_cases h s (I2 _ J)) as [[P S']|[(P & Q & C)|(L & Q & C)]]; [destruct P; congruence|destruct P; congruence|]. destruct K as [->|K].
        -- destruct L as [_ [[_ L]|[L _]]]; congruence.
        -- rewrite Forall_forall in Q. destruct (Q g K) as (_ & E & _). congruence.
      * assert (T : In f0 (concat S)) by (rewrite CS; left; reflexivity). apply in_concat in T as (s & J & K). destruct s as [|h s]; [destruct K|]. pose proof (ALL h s J) as N.
        apply in_split in J as (l1 & l2 & ->). eexists. apply step_lock. exact N.
  - right. apply ready_in in IR as (s & IS & N). pose proof IS as IS'. apply in_split in IS' as (l1 & l2 & ES). destruct (outstanding (CState o p S n) (f_id f)) eqn:O.
    + apply some_outstanding in O as O'. cbn [pool stacks] in O'. destruct O' as [(e & J & E)|(s2 & g & J & K & E)].
      * apply in_split in J as (p1 & p2 & EP). subst S p. eexists. apply (step_take steals o p1 e p2 l1 (f :: s) l2 n). cbn zeta. auto.
      * exfalso. pose proof (I3 s2 J) as D2. destruct (I2 s2 J) as (ps & cs & E2 & P & C & _). assert (KK := K). rewrite E2 in KK. apply in_app_iff in KK as [KP|KC].
        -- destruct ps as [|t ps]; [destruct KP|]. cbn in E2. assert (T : In t (ready S)). { apply ready_in. exists (ps ++ cs). rewrite <- E2. split; [exact J|]. apply Forall_cons_iff in P as [P _]. apply P. }
           apply M in T. pose proof (desc_parent s2 g D2 K). rewrite E2 in D2, K. pose proof (desc_top _ _ g D2 K). lia.
        -- destruct (chain_parent cs g C KC) as [Z|(h & c1 & c2 & EC & PH)].
           ++ assert (B : 0 < f_id f < n) by (apply I4; apply in_concat; exists (f :: s); split; [exact IS|left; reflexivity]). lia.
           ++ assert (KH : In h s2) by (rewrite E2, EC, !in_app_iff; cbn; tauto). rewrite ES in I5, J. pose proof (nodup_twice f_id l1 f s l2 s2 h I5 J KH (eq_trans (eq_sym PH) E)) as ->.
              pose proof (desc_top _ _ g D2 K) as D3. pose proof (desc_parent _ g D2 K). lia.
    + subst S. destruct (f_rest f) as [|[ts|t] r] eqn:R; eexists; [eapply step_end|eapply step_fork|eapply step_call]; eauto.
Qed.

Theorem steps_inv steals progs n st : csteps steals n (init progs) st -> excl st /\ n + swork st <= list_sum (map work progs) /\ (Forall direct progs -> inv st).
Proof.
  intros H. remember (init progs) as st0 eqn:E0. induction H as [st|n st st' st'' H IH K]; subst.
  - split; [apply init_excl|]. split; [apply init_work|apply init_inv].
  - destruct (IH eq_refl) as (X & W & V). pose proof (step_work _ _ _ K). pose proof (excl_step _ _ _ K X) as X'. split; [exact X'|]. split; [lia|]. intros D. eapply inv_step; eauto.
Qed.
