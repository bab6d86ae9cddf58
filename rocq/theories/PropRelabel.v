(** Property theorem C67: grpph depends on the weighted digraph only. *)
From Verif Require Import Base Fields FieldsFacts Spec LinAlg Columns Grpph SpecGrpph SpecPath SpecWeighted PathBasis PathBetti Weighted WeightedRun ShortestPaths PropWeighted PropGrpphExamples BarsUnique Relabel.
From Coq Require Import Permutation Lia.
Set Implicit Arguments.

Section Renamed.
  Context {F : ordT} (add : F -> F -> F) (z inf : F) (n : nat) (sg ta : nat -> nat) (edges edges' : list (nat * nat * F)).
  Hypothesis Hi : inverse_pair n sg ta.
  Hypothesis Hw : weighted_digraph n z edges.
  Hypothesis Hw' : weighted_digraph n z edges'.
  Hypothesis He : forall u v w, u < n -> v < n -> (In (u, v, w) edges <-> In (sg u, sg v, w) edges').
  Lemma renamed_in u v w : In (u, v, w) edges <-> In (sg u, sg v, w) edges'.
  Proof.
    split; intros H.
    - destruct (Hw _ _ _ H) as (Hu & Hv & _). now apply He.
    - pose proof (Hw' _ _ _ H) as (Hu & Hv & _). destruct Hi as (_ & _ & H3). apply (proj1 (H3 _)) in Hu, Hv. exact (proj2 (He w Hu Hv) H).
  Qed.
  Lemma renamed_walk x y d : walk add z (finite_edge_of inf edges) x y d -> walk add z (finite_edge_of inf edges') (sg x) (sg y) d.
  Proof. induction 1 as [|u y d w H IH [Ha Hf]]; [constructor|]. econstructor; [exact IH|]. split; auto. now apply renamed_in. Qed.
End Renamed.
Section Renamed2.
  Context {F : ordT} (add : F -> F -> F) (z inf : F) (n : nat) (sg ta : nat -> nat) (edges edges' : list (nat * nat * F)).
  Hypothesis Hi : inverse_pair n sg ta.
  Hypothesis Hw : weighted_digraph n z edges.
  Hypothesis Hw' : weighted_digraph n z edges'.
  Hypothesis He : forall u v w, u < n -> v < n -> (In (u, v, w) edges <-> In (sg u, sg v, w) edges').
  Lemma renamed_back u v w : u < n -> v < n -> (In (u, v, w) edges' <-> In (ta u, ta v, w) edges).
  Proof. intros _ _. destruct (id Hi) as (_ & H & _). rewrite (renamed_in Hi Hw Hw' He), !H. tauto. Qed.
  Lemma renamed_walk_iff x y d : walk add z (finite_edge_of inf edges) x y d <-> walk add z (finite_edge_of inf edges') (sg x) (sg y) d.
  Proof.
    split; [apply (renamed_walk Hi Hw Hw' He)|]. intros H. apply (renamed_walk (inverse_sym Hi) Hw' Hw renamed_back) in H. destruct (id Hi) as (H1 & _). now rewrite !H1 in H.
  Qed.
  Lemma renamed_shortest x y d : shortest add z (finite_edge_of inf edges) x y d <-> shortest add z (finite_edge_of inf edges') (sg x) (sg y) d.
  Proof. unfold shortest. rewrite renamed_walk_iff. split; intros [H1 H2]; split; auto; intros d' Hd; apply H2; now apply renamed_walk_iff. Qed.
  Lemma renamed_no_overflow : no_overflow add z inf edges -> no_overflow add z inf edges'.
  Proof. intros H x y d Hd. destruct (id Hi) as (_ & H2 & _). rewrite <- (H2 x), <- (H2 y) in Hd. apply renamed_shortest in Hd. eauto. Qed.
  Lemma renamed_time time time' : shortest_path_filtration add z (finite_edge_of inf edges) time -> shortest_path_filtration add z (finite_edge_of inf edges') time' ->
    forall x y, time x y = time' (sg x) (sg y).
  Proof.
    intros (A1 & A2 & A3) (B1 & B2 & B3) x y. destruct (Nat.eq_dec x y) as [->|Hne]; [now rewrite A1, B1|].
    assert (Hne' : sg x <> sg y) by (intros E; apply Hne; destruct (id Hi) as (H1 & _); rewrite <- (H1 x), E; apply H1).
    destruct (time x y) as [d|] eqn:E.
    - apply A2, renamed_shortest in E. destruct (time' (sg x) (sg y)) as [d'|] eqn:E'.
      + f_equal. exact (shortest_unique E (B2 _ _ _ E')).
      + exfalso. exact (B3 _ _ Hne' E' d (proj1 E)).
    - destruct (time' (sg x) (sg y)) as [d'|] eqn:E'; auto. apply B2, renamed_shortest in E'. exfalso. exact (A3 _ _ Hne E d' (proj1 E')).
  Qed.
End Renamed2.

(** ** C67: vertex names, edge order, repeated edges, tie-breaking and the shortest-path library do not matter *)
Theorem C67_digraph_determines_bars :
  forall (HI HI' : heaps) (F : ordT) (add : F -> F -> F) (z inf : F) (n : nat) (edges edges' : list (nat * nat * F))
    (sp sp' : list (nat * nat * F) -> nat -> nat -> option F) (sg : nat -> nat),
  (N.of_nat n < 65536)%N -> weighted_digraph n z edges -> weighted_digraph n z edges' -> nonneg_add add z -> no_overflow add z inf edges ->
  shortest_path_library add z n sp -> shortest_path_library add z n sp' ->
  renames n sg edges edges' ->
  exists M : nat, forall fuel fuel', M < fuel -> M < fuel' ->
  exists ess0 ess1 prs0 prs1 ess0' ess1' prs0' prs1',
    grpph_py HI fuel z inf sp n edges = Ok ([ess0; ess1], [prs0; prs1]) /\
    grpph_py HI' fuel' z inf sp' n edges' = Ok ([ess0'; ess1'], [prs0'; prs1']) /\
    Permutation ess0 ess0' /\ Permutation ess1 ess1' /\ Permutation prs0 prs0' /\ Permutation prs1 prs1'.
Proof.
  intros HI HI' F add z inf n edges edges' sp sp' sg0 Hn Hw Hw' Hadd Hov Hlib Hlib' (R1 & R2 & R3).
  destruct (extend_relabelling sg0 R1 R2) as (sg & ta & Hi & Hsg).
  assert (He : forall u v w, u < n -> v < n -> (In (u, v, w) edges <-> In (sg u, sg v, w) edges')) by (intros u v w Hu Hv; rewrite !Hsg by auto; now apply R3).
  assert (Hov' : no_overflow add z inf edges') by (apply (renamed_no_overflow Hi Hw Hw' He); auto).
  destruct (C57_weighted_digraph HI Hn Hw Hadd Hov Hlib) as (time & Hspf & M1 & H1).
  destruct (C57_weighted_digraph HI' Hn Hw' Hadd Hov' Hlib') as (time' & Hspf' & M2 & H2).
  exists (M1 + M2). intros fuel fuel' Hf Hf'. destruct (H1 fuel ltac:(lia)) as (ess0 & ess1 & prs0 & prs1 & E1 & V1 & B1). destruct (H2 fuel' ltac:(lia)) as (ess0' & ess1' & prs0' & prs1' & E2 & V2 & B2).
  exists ess0, ess1, prs0, prs1, ess0', ess1', prs0', prs1'. split; auto. split; auto.
  pose proof (renamed_time Hi Hw Hw' He Hspf Hspf') as Ht.
  assert (HE : forall x y, In (x, y) (map fst edges) <-> In (sg x, sg y) (map fst edges')).
  { intros x y. rewrite !in_map_iff. split.
    - intros ([[u v] w] & [= -> ->] & Hin). exists (sg x, sg y, w). split; auto. now apply (renamed_in Hi Hw Hw' He).
    - intros ([[u v] w] & [= -> ->] & Hin). exists (x, y, w). split; auto. now apply (renamed_in Hi Hw Hw' He). }
  assert (P0 : Permutation ess0 ess0' /\ Permutation prs0 prs0').
  { apply bars_determined; [intros; apply V1, in_app_iff; auto|intros; apply V2, in_app_iff; auto|].
    intros s t Hst. apply (proj1 (B2 s t Hst _)). eapply betti_0_relabel; [exact Hi|exact Ht|exact HE|]. now apply B1. }
  assert (P1 : Permutation ess1 ess1' /\ Permutation prs1 prs1').
  { apply bars_determined; [intros; apply V1, in_app_iff; auto|intros; apply V2, in_app_iff; auto|].
    intros s t Hst. apply (proj2 (B2 s t Hst _)). eapply betti_1_relabel; [exact Hi|exact Ht|exact HE|]. now apply B1. }
  tauto.
Qed.
Print Assumptions C67_digraph_determines_bars.

(** the diamond of C61 with its vertices renamed, an edge repeated and the edges in another order *)
Example C67_ex :
  let edges := [(0, 1, 1); (1, 2, 2); (0, 2, 4); (2, 3, 1); (1, 3, 5)] : list (nat * nat * nat_ord) in
  let edges' := [(3, 0, 5); (1, 0, 1); (3, 1, 2); (2, 3, 1); (2, 1, 4); (3, 1, 2)] : list (nat * nat * nat_ord) in
  let sg := fun v => match v with 0 => 2 | 1 => 3 | 2 => 1 | _ => 0 end in
  weighted_digraph (F:=nat_ord) 4 0 edges /\ weighted_digraph (F:=nat_ord) 4 0 edges' /\ renames 4 sg edges edges' /\
  grpph_py (F:=nat_ord) list_heaps 40 0 1000 (fun e => bellman (F:=nat_ord) Nat.add 0 e 4) 4 edges = Ok ([[0]; []], [[]; [(0, 3); (0, 3)]]) /\
  grpph_py (F:=nat_ord) list_heaps 40 0 1000 (fun e => bellman (F:=nat_ord) Nat.add 0 e 4) 4 edges' = Ok ([[0]; []], [[]; [(0, 3); (0, 3)]]).
Proof.
  cbv zeta. split; [intros u v w H; simpl in H; repeat (destruct H as [[= <- <- <-]|H]; [repeat split; auto; try lia; apply ole_nat; lia|]); destruct H|].
  split; [intros u v w H; simpl in H; repeat (destruct H as [[= <- <- <-]|H]; [repeat split; auto; try lia; apply ole_nat; lia|]); destruct H|].
  split; [|split; vm_compute; reflexivity]. split; [|split].
  - intros x Hx. do 4 (destruct x as [|x]; [lia|]). lia.
  - intros x y Hx Hy. do 4 (destruct x as [|x]; [do 4 (destruct y as [|y]; [lia|]); lia|]). lia.
  - intros u v w Hu Hv. do 4 (destruct u as [|u]; [do 4 (destruct v as [|v]; [split; intros H; repeat (destruct H as [H|H]; [first [discriminate H|injection H as <-; simpl; tauto]|]); destruct H|]); lia|]). lia.
Qed.
