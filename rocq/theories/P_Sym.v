(** Properties C19 and C20: symbol sets. Vocabulary: SymSpec.v. *)
From Coq Require Import ZArith List Bool String Sorted Lia.
From Verif Require Import Base SymModel SymSpec SymProofs.
Import ListNotations.
Open Scope nat_scope.

(** C19. *)
Theorem merge_symbol_sets_exact : forall s1 s2,
  sorted_set s1 -> sorted_set s2 -> (Z.of_nat (List.length s1 + List.length s2) <= imax size_t)%Z ->
  exists u m1 m2,
    merge_symbol_sets s1 s2 = Ok (u, m1, m2) /\
    (* the union, as a set *)
    sorted_set u /\ (forall x, In x u <-> In x s1 \/ In x s2) /\
    (* inserting what the maps say gives the union *)
    insert_all (ins_at m1) 0 s1 = u /\ insert_all (ins_at m2) 0 s2 = u /\
    (* the maps are well-formed and contain exactly the missing symbols *)
    ins_map_ok (List.length s1) m1 /\ ins_map_ok (List.length s2) m2 /\
    (forall x, In x (List.concat (map snd m1)) <-> In x s2 /\ ~ In x s1) /\
    (forall x, In x (List.concat (map snd m2)) <-> In x s1 /\ ~ In x s2) /\
    (* commutativity *)
    merge_symbol_sets s2 s1 = Ok (u, m2, m1).
Proof.
  intros s1 s2 H1 H2 Hsz.
  assert (U : set_union s2 s1 = set_union s1 s2).
  { apply sorted_ext; try (apply union_sorted; assumption). intros x. rewrite !union_in. tauto. }
  destruct (compute_map_ok s1 (set_union s1 s2) 0) as (m1 & E1 & I1 & S1 & F1 & C1);
    [apply union_sorted; assumption|assumption|intros; apply union_in; auto|].
  destruct (compute_map_ok s2 (set_union s1 s2) 0) as (m2 & E2 & I2 & S2 & F2 & C2);
    [apply union_sorted; assumption|assumption|intros; apply union_in; auto|].
  exists (set_union s1 s2), m1, m2.
  assert (M1 : (imax size_t - Z.of_nat (List.length s2) <? Z.of_nat (List.length s1))%Z = false)
    by (apply Z.ltb_ge; lia).
  assert (M2 : (imax size_t - Z.of_nat (List.length s1) <? Z.of_nat (List.length s2))%Z = false)
    by (apply Z.ltb_ge; lia).
  split. { unfold merge_symbol_sets. rewrite M1, E1, E2. reflexivity. }
  split; [apply union_sorted; assumption|]. split; [intros; apply union_in|].
  split; [exact I1|]. split; [exact I2|].
  split. { split; [exact S1|]. eapply Forall_impl; [|exact F1]. cbn. tauto. }
  split. { split; [exact S2|]. eapply Forall_impl; [|exact F2]. cbn. tauto. }
  split. { intros x. rewrite C1, union_in. tauto. }
  split. { intros x. rewrite C2, union_in. tauto. }
  unfold merge_symbol_sets. rewrite M2, U, E1, E2. reflexivity.
Qed.
Print Assumptions merge_symbol_sets_exact.

(** The documentation's example (src/symbols.cpp:68-73). *)
Example merge_symbol_sets_nonvacuous :
  merge_symbol_sets ["b"; "c"; "e"]%string ["a"; "c"; "d"; "f"; "g"]%string =
  Ok (["a"; "b"; "c"; "d"; "e"; "f"; "g"]%string,
      [(0, ["a"]%string); (2, ["d"]%string); (3, ["f"; "g"]%string)],
      [(1, ["b"]%string); (3, ["e"]%string)]) /\
  sorted_set ["b"; "c"; "e"]%string.
Proof. split; [reflexivity|repeat constructor]. Qed.

(** C20: maps. *)
Theorem sm_intersect_idx_exact : forall (T : Type) (m : symbol_map T) s_ref,
  sorted_set (map fst m) -> sorted_set s_ref ->
  StronglySorted lt (map fst (sm_intersect_idx m s_ref)) /\
  (forall i v, In (i, v) (sm_intersect_idx m s_ref) <->
               exists n, nth_error s_ref i = Some n /\ In (n, v) m).
Proof.
  intros T m s_ref Hm Hs.
  destruct (sm_loop_spec m 0 s_ref s_ref Hm Hs eq_refl) as (A & _ & C); [intros x n []|].
  split; assumption.
Qed.
Print Assumptions sm_intersect_idx_exact.

(** C20: sets. *)
Theorem ss_intersect_idx_exact : forall s s_ref,
  sorted_set s -> sorted_set s_ref ->
  StronglySorted lt (ss_intersect_idx s s_ref) /\
  (forall i, In i (ss_intersect_idx s s_ref) <-> exists n, nth_error s_ref i = Some n /\ In n s).
Proof.
  intros s s_ref Hs Hr. unfold ss_intersect_idx. rewrite ss_loop_sm.
  destruct (sm_intersect_idx_exact _ (map (fun n => (n, tt)) s) s_ref) as [A B]; auto.
  { rewrite map_map. cbn. rewrite map_id. exact Hs. }
  split; [exact A|]. intros i. rewrite in_map_iff. split.
  - intros ([j []] & <- & I). apply B in I as (n & E & I). exists n. split; auto.
    apply in_map_iff in I as (n' & Eq & I). inversion Eq; subst; auto.
  - intros (n & E & I). exists (i, tt). split; auto. apply B. exists n. split; auto.
    apply in_map_iff. eauto.
Qed.
Print Assumptions ss_intersect_idx_exact.

Example sm_intersect_nonvacuous :
  sm_intersect_idx [("a", 10); ("c", 20); ("z", 30)]%string ["b"; "c"; "d"; "z"]%string = [(1, 20); (3, 30)] /\
  ss_intersect_idx ["a"; "c"; "z"]%string ["b"; "c"; "d"; "z"]%string = [1; 3].
Proof. split; reflexivity. Qed.
