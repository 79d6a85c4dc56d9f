(** C85: concurrent calls of pow() exclude one another and all return, if none is made inside a task of a parallel algorithm. *)
From Coq Require Import List Arith Bool Lia.
From Verif Require Import PowConc PowConcProofs.
Import ListNotations.

(** Whatever the programs, and wherever they call pow(): the mutex of the cache is never held by two calls. *)
Theorem pow_exclusive (steals : list frame -> nat * task -> Prop) progs n st : csteps steals n (init progs) st -> length (filter f_holds (concat (stacks st))) <= 1.
Proof.
  intros H. apply steps_inv in H as (X & _ & _). destruct X as [_ N _ X _]. destruct (filter f_holds (concat (stacks st))) as [|f [|g l]] eqn:E; [cbn; lia|cbn; lia|exfalso].
  assert (I : forall h, In h (f :: g :: l) -> owner st = Some (f_id h)). { intros h J. rewrite <- E in J. apply filter_In in J as [J HH]. apply X; assumption. }
  assert (ND : NoDup (map f_id (filter f_holds (concat (stacks st))))).
  { clear E I X. induction (concat (stacks st)) as [|a c IH]; cbn; [constructor|]. cbn in N. inversion N as [|? ? N1 N2]; subst. destruct (f_holds a); [|apply IH, N2]. cbn. constructor; [|apply IH, N2].
    intros J. apply N1. apply in_map_iff in J as (b & <- & J). apply filter_In in J as [J _]. apply in_map, J. }
  rewrite E in ND. cbn in ND. inversion ND as [|? ? N1 _]; subst. apply N1. left. pose proof (I f (or_introl eq_refl)) as A. pose proof (I g (or_intror (or_introl eq_refl))) as B. congruence.
Qed.
(** If pow() is called by threads (any number, any interleaving, with any other parallel algorithms) and not inside tasks: no execution is longer than the sum of the work,
    and one which cannot continue has finished: every call has returned.  Missing (pow_tasks_deadlock_refuted): the same for calls inside tasks. *)
Theorem pow_calls_return_partial (steals : list frame -> nat * task -> Prop) progs n st : Forall direct progs -> csteps steals n (init progs) st ->
  n <= list_sum (map work progs) /\ (finished st \/ exists st', cstep steals st st').
Proof. intros D H. apply steps_inv in H as (X & W & V). split; [lia|]. apply progress; auto. Qed.

(** The same for every task, wherever it calls pow(): executions are bounded, so not to return is to be blocked. *)
Theorem pow_no_livelock (steals : list frame -> nat * task -> Prop) progs n st : csteps steals n (init progs) st -> n <= list_sum (map work progs).
Proof. intros H. apply steps_inv in H as (X & W & V). lia. Qed.

(** Refuted for calls inside tasks: the task below is pow(); a parallel loop of one thread calls it twice, a second thread is a worker. *)
Definition leaf : task := Task false [].
Definition powt : task := Task true [Fork [leaf; leaf]].
Definition loop : list task := [Task false [Fork [powt; powt]]; Task false []].
Definition blocked : cstate := CState (Some 3) [] [[Frame 6 1 true false [Fork [leaf; leaf]]; Frame 3 1 false true []; Frame 1 0 false false []]; []] 7.
Lemma mid1 {A} (l1 : list A) s l2 a b : l1 ++ s :: l2 = [a; b] -> s = a \/ s = b.
Proof. intros E. assert (I : In s [a; b]) by (rewrite <- E; apply in_elt). cbn in I. intuition congruence. Qed.
Theorem pow_tasks_deadlock_refuted : let steals := fun (_ : list frame) (_ : nat * task) => True in
  exists n, csteps steals n (init loop) blocked /\ ~ finished blocked /\ forall st, ~ cstep steals blocked st.
Proof.
  intros steals. exists 10. split; [|split].
  - assert (GO : forall n a b c, csteps steals n a b -> cstep steals b c -> csteps steals (S n) a c) by (intros; eapply steps_S; eauto).
    set (fA := Frame 1 0 false false [Fork [powt; powt]]). set (f1 := Frame 1 0 false false []). set (f3 := Frame 3 1 false true []).
    eapply GO; [eapply GO; [eapply GO; [eapply GO; [eapply GO; [eapply GO; [eapply GO; [eapply GO; [eapply GO; [eapply GO; [apply steps_0|]|]|]|]|]|]|]|]|]|].
    + apply (step_end steals None [] [[fA]] (Frame 2 0 false false []) [] [] 3); reflexivity.
    + apply (step_fork steals None [] [] fA [powt; powt] [] [] [[]] 3); reflexivity.
    + apply (step_take steals None [] (1, powt) [(1, powt)] [] [f1] [[]] 3). cbn. auto.
    + apply (step_lock steals [(1, powt)] [] (Frame 3 1 true false [Fork [leaf; leaf]]) [f1] [[]] 4); reflexivity.
    + apply (step_fork steals (Some 3) [(1, powt)] [] (Frame 3 1 false true [Fork [leaf; leaf]]) [leaf; leaf] [] [f1] [[]] 4); reflexivity.
    + apply (step_take steals (Some 3) [] (3, leaf) [(3, leaf); (1, powt)] [] [f3; f1] [[]] 4). cbn. auto.
    + apply (step_take steals (Some 3) [] (3, leaf) [(1, powt)] [[Frame 4 3 false false []; f3; f1]] [] [] 5). exact I.
    + apply (step_end steals (Some 3) [(1, powt)] [] (Frame 4 3 false false []) [f3; f1] [[Frame 5 3 false false []]] 6); reflexivity.
    + apply (step_take steals (Some 3) [] (1, powt) [] [] [f3; f1] [[Frame 5 3 false false []]] 6). cbn. unfold steals. auto.
    + apply (step_end steals (Some 3) [] [[Frame 6 1 true false [Fork [leaf; leaf]]; f3; f1]] (Frame 5 3 false false []) [] [] 7); reflexivity.
  - intros [_ F]. inversion F; subst. discriminate.
  - intros st' H. remember blocked as b eqn:EB. unfold blocked in EB.
    destruct H as [o p1 e p2 l1 s l2 n st H|p l1 f s l2 n H|o p l1 f ts r s l2 n st H R O|o p l1 f t r s l2 n st H R O|o p l1 f s l2 n st H R O]; try unfold st in EB;
      pose proof (f_equal owner EB) as E1; pose proof (f_equal pool EB) as E2; pose proof (f_equal stacks EB) as E3; cbn [owner pool stacks] in E1, E2, E3.
    + symmetry in E2. apply app_cons_not_nil in E2. exact E2.
    + discriminate E1.
    + apply mid1 in E3 as [E3|E3]; [|discriminate E3]. injection E3 as E4 _. subst f. discriminate H.
    + apply mid1 in E3 as [E3|E3]; [|discriminate E3]. injection E3 as E4 _. subst f. discriminate H.
    + apply mid1 in E3 as [E3|E3]; [|discriminate E3]. injection E3 as E4 _. subst f. discriminate H.
Qed.

(** Non-vacuity: two threads call pow(), one of them in a function called after a parallel algorithm of its own; all schedules return. *)
Definition two : list task := [Task false [Fork [leaf; Task false [Fork [leaf]]]; Call (Task false [Call powt; Fork [leaf]])]; powt].
Example two_direct : Forall direct two.
Proof. repeat (constructor; try (repeat constructor)). Qed.
Example two_starts : exists st, csteps (fun _ _ => True) 1 (init two) st /\ owner st = Some 2.
Proof.
  eexists. split; [eapply steps_S; [apply steps_0|]|].
  - apply (step_lock (fun _ _ => True) [] [[Frame 1 0 false false [Fork [leaf; Task false [Fork [leaf]]]; Call (Task false [Call powt; Fork [leaf]])]]] (Frame 2 0 true false [Fork [leaf; leaf]]) [] [] 3). reflexivity.
  - reflexivity.
Qed.
Example two_returns steals n st : csteps steals n (init two) st -> (forall st', ~ cstep steals st st') -> finished st.
Proof. intros H S. destruct (pow_calls_return_partial steals two n st two_direct H) as [_ [F|[st' K]]]; [exact F|destruct (S st' K)]. Qed.

Print Assumptions pow_exclusive. Print Assumptions pow_calls_return_partial. Print Assumptions pow_no_livelock. Print Assumptions pow_tasks_deadlock_refuted.
