(** C114, second part: bridges, and the same on doubles with Dijkstra's algorithm. *)
From Coq Require Import Permutation ZArith Reals Lia Relations.
From Verif Require Import Base Fields FieldsFacts Spec LinAlg Columns ColumnsFacts Matrices Grpph SpecGrpph SpecPath SpecWeighted Weighted WeightedRun ShortestPaths PropWeighted PropGrpphExamples BarsUnique Relabel Float64 DoubleWalks PropDouble StdHeap Dijkstra PropDijkstra PropDisjoint WedgePaths PropWedge.
Set Implicit Arguments.

Lemma single_edge_forest {A : Type} n a b (w : A) : a < n -> b < n -> a <> b -> forest n [(a, b, w)].
Proof.
  intros Ha Hb Hab. destruct (@representatives_step n [] (seq 0 n) a b (representatives_nil n) Ha Hb) as (R & HR & [[H _]|[_ H]]).
  - exfalso. apply Hab. clear -H. induction H as [? ? []| | |]; congruence.
  - exists [(a, b)], R. split; [repeat constructor; intros []|]. split; [simpl; tauto|]. split; [exact HR|]. rewrite seq_length in H. simpl. lia.
Qed.

(** An edge that joins two otherwise disjoint digraphs changes nothing in dimension 1. *)
Corollary C114_bridge :
  forall (HI HI1 HI2 : heaps) (F : ordT) (add : F -> F -> F) (z inf : F) (n a b : nat) (w : F) (edges1 edges2 : list (nat * nat * F)) (sp sp1 sp2 : list (nat * nat * F) -> nat -> nat -> option F),
  (N.of_nat n < 65536)%N -> weighted_digraph n z (edges1 ++ (a, b, w) :: edges2) -> a <> b ->
  (forall x, end_of edges1 x -> ~ end_of edges2 x) -> ~ end_of edges1 b -> ~ end_of edges2 a ->
  nonneg_add add z -> (forall a b w, ole a b -> ole (add a w) (add b w)) -> no_overflow add z inf (edges1 ++ (a, b, w) :: edges2) ->
  shortest_path_library add z n sp1 -> shortest_path_library add z n sp2 -> shortest_path_library add z n sp ->
  exists N : nat, forall fuel fuel1 fuel2, N < fuel -> N < fuel1 -> N < fuel2 ->
  exists ess0 ess1 prs1 ess0_1 ess1_1 prs1_1 ess0_2 ess1_2 prs1_2,
    grpph_py HI1 fuel1 z inf sp1 n edges1 = Ok ([ess0_1; ess1_1], [[]; prs1_1]) /\
    grpph_py HI2 fuel2 z inf sp2 n edges2 = Ok ([ess0_2; ess1_2], [[]; prs1_2]) /\
    grpph_py HI fuel z inf sp n (edges1 ++ (a, b, w) :: edges2) = Ok ([ess0; ess1], [[]; prs1]) /\
    Permutation ess1 (ess1_1 ++ ess1_2) /\ Permutation prs1 (prs1_1 ++ prs1_2).
Proof.
  intros HI HI1 HI2 F add z inf n a b w edges1 edges2 sp sp1 sp2 Hn Hw Hab Hdis Hb1 Ha2 Hadd Hmono O L1 L2 L.
  assert (Eq : edges1 ++ (a, b, w) :: edges2 = (edges1 ++ [(a, b, w)]) ++ edges2) by (rewrite <- app_assoc; reflexivity). rewrite Eq in *.
  destruct (Hw a b w) as (Ha & Hb & _); [apply in_app_iff; left; apply in_app_iff; right; now left|].
  assert (Hend : forall x, end_of [(a, b, w)] x -> x = a \/ x = b) by (intros x (y & u & [[[= <- <- <-]|[]]|[[= <- <- <-]|[]]]); auto).
  assert (Hsplit : forall x, end_of (edges1 ++ [(a, b, w)]) x -> end_of edges1 x \/ end_of [(a, b, w)] x) by (intros x (y & u & H); rewrite !in_app_iff in H; destruct H as [[H|H]|[H|H]]; [left|right|left|right]; exists y, u; auto).
  assert (Hsh : share_only b (edges1 ++ [(a, b, w)]) edges2).
  { intros x H1 H2. destruct (Hsplit x H1) as [H|H]; [exfalso; eapply Hdis; eauto|]. destruct (Hend x H) as [->| ->]; auto. contradiction. }
  assert (Hsh' : share_only a edges1 [(a, b, w)]) by (intros x H1 H2; destruct (Hend x H2) as [->| ->]; auto; contradiction).
  assert (Hnl : ~ In (b, b) (map fst (edges1 ++ [(a, b, w)]))).
  { intros H. apply in_map_iff in H. destruct H as ([[c d] u] & [= -> ->] & H). apply in_app_iff in H. destruct H as [H|[[= H _]|[]]]; [|congruence]. apply Hb1. exists b, u. auto. }
  pose proof (@wedge_digraph1 F z n _ _ Hw) as Hw1. pose proof (wedge_overflow1 Hadd Hmono Hw Hsh O) as O1.
  destruct (@C114_shared_vertex HI HI1 HI2 F add z inf n b (edges1 ++ [(a, b, w)]) edges2 sp sp1 sp2 Hn Hw Hb Hsh (fun H => Hnl (proj1 H)) Hadd Hmono O L1 L2 L) as (N & HN).
  destruct (@C114_attached_forest HI1 HI1 F add z inf n a edges1 [(a, b, w)] sp1 sp1 Hn Hw1 Ha Hsh' (single_edge_forest w Ha Hb Hab) Hadd Hmono O1 L1 L1) as (M & HM).
  exists (N + M). intros fuel fuel1 fuel2 Hf Hf1 Hf2. destruct (HN fuel fuel1 fuel2 ltac:(lia) ltac:(lia) ltac:(lia)) as (e0 & e1 & q1 & e01 & e11 & q11 & e02 & e12 & q12 & A1 & A2 & A3 & _ & P1 & P2).
  destruct (HM fuel1 fuel1 ltac:(lia) ltac:(lia)) as (f0 & f1 & g1 & f01 & f11 & g11 & B1 & B2 & Q1 & Q2). rewrite A1 in B2. injection B2 as <- <- <-.
  exists e0, e1, q1, f01, f11, g11, e02, e12, q12. split; auto. split; auto. split; auto. split; [rewrite P1|rewrite P2]; now apply Permutation_app_tail.
Qed.
Print Assumptions C114_bridge.

(** On doubles, with Dijkstra's algorithm: equality of the printed doubles, not just up to rounding. *)
Corollary C114_doubles :
  forall (HI HI1 HI2 : heaps) (n v : nat) (edges1 edges2 : list (nat * nat * notnan_ord)) adj,
  (N.of_nat n < 65536)%N -> double_weights n (edges1 ++ edges2) -> (forall edges, adjacency edges (adj edges)) -> v < n ->
  share_only v edges1 edges2 -> ~ (In (v, v) (map fst edges1) /\ In (v, v) (map fst edges2)) ->
  let sp := dijkstra_sp (F:=notnan_ord) add64 zero64 [] scored_push scored_pop adj in
  exists N : nat, forall fuel fuel1 fuel2, N < fuel -> N < fuel1 -> N < fuel2 ->
  exists ess0 ess1 prs1 ess0_1 ess1_1 prs1_1 ess0_2 ess1_2 prs1_2,
    grpph_py (F:=notnan_ord) HI1 fuel1 zero64 inf64 sp n edges1 = Ok ([ess0_1; ess1_1], [[]; prs1_1]) /\
    grpph_py (F:=notnan_ord) HI2 fuel2 zero64 inf64 sp n edges2 = Ok ([ess0_2; ess1_2], [[]; prs1_2]) /\
    grpph_py (F:=notnan_ord) HI fuel zero64 inf64 sp n (edges1 ++ edges2) = Ok ([ess0; ess1], [[]; prs1]) /\
    length ess0 + n = length ess0_1 + length ess0_2 /\ Permutation ess1 (ess1_1 ++ ess1_2) /\ Permutation prs1 (prs1_1 ++ prs1_2).
Proof.
  intros HI HI1 HI2 n v edges1 edges2 adj Hn Hd Hadj Hv Hsh Hl sp.
  assert (Hlib : shortest_path_library (F:=notnan_ord) add64 zero64 n sp) by exact (proj1 (@C97_dijkstra notnan_ord _ add64 zero64 _ _ _ adj add64_nonneg add64_monotone (C97_std_queue notnan_ord) Hadj) n).
  assert (Hw : weighted_digraph (F:=notnan_ord) n zero64 (edges1 ++ edges2)) by (intros u x w Hin; destruct (Hd _ _ _ Hin) as (H1 & H2 & H3 & _); split; auto; split; auto; apply ole_val; now rewrite val_zero).
  apply (@C114_shared_vertex HI HI1 HI2 notnan_ord add64 zero64 inf64 n v edges1 edges2 sp sp sp); auto using add64_nonneg.
  - exact add64_monotone.
  - apply (@no_overflow64 n); auto. intros u x w Hin. apply (Hd _ _ _ Hin).
Qed.
Print Assumptions C114_doubles.

(** two directed triangles joined by an edge *)
Example C114_bridge_ex :
  let edges1 := [(0, 1, 1); (1, 2, 2); (2, 0, 3)] : list (nat * nat * nat_ord) in
  let edges2 := [(3, 4, 2); (4, 5, 2); (5, 3, 6)] : list (nat * nat * nat_ord) in
  let run := grpph_py (F:=nat_ord) list_heaps 200 0 1000 (fun e => bellman (F:=nat_ord) Nat.add 0 e 6) 6 in
  (forall x, end_of edges1 x -> ~ end_of edges2 x) /\ ~ end_of edges1 3 /\ ~ end_of edges2 1 /\
  run edges1 = Ok ([[0; 0; 0; 0]; []], [[]; [(0, 3)]]) /\ run edges2 = Ok ([[0; 0; 0; 0]; []], [[]; [(0, 6)]]) /\
  run (edges1 ++ (1, 3, 1) :: edges2) = Ok ([[0]; []], [[]; [(0, 3); (0, 6)]]).
Proof.
  cbv zeta. split; [|split; [|split]].
  - intros x (y & w & H) (y' & w' & H'). simpl in H, H'. repeat match goal with K : _ \/ _ |- _ => destruct K as [K|K] end; try contradiction; congruence.
  - intros (y & w & H). simpl in H. repeat match goal with K : _ \/ _ |- _ => destruct K as [K|K] end; try contradiction; congruence.
  - intros (y & w & H). simpl in H. repeat match goal with K : _ \/ _ |- _ => destruct K as [K|K] end; try contradiction; congruence.
  - repeat split; vm_compute; reflexivity.
Qed.
