(** C114: grpph on a digraph made of two digraphs that share one vertex. *)
From Coq Require Import Permutation Lia Relations.
From Verif Require Import Base Fields FieldsFacts Spec LinAlg Columns GrpphCells Grpph SpecGrpph SpecPath SpecWeighted PathBasis PathBetti Weighted WeightedRun ShortestPaths PropWeighted PropGrpphExamples BarsUnique Relabel PropRelabel Persistence SplitBetti DisjointPaths PropDisjoint WedgePaths BettiUnique PropRankBound.
Set Implicit Arguments.

(** ** Specification *)
(** [x] is an end of some edge *)
Definition end_of {A : Type} (edges : list (nat * nat * A)) (x : nat) : Prop := exists y w, In (x, y, w) edges \/ In (y, x, w) edges.
(** no vertex but [v] is an end of edges of both lists *)
Definition share_only {A : Type} (v : nat) (edges1 edges2 : list (nat * nat * A)) : Prop := forall x, end_of edges1 x -> end_of edges2 x -> x = v.

(** ** Walks retract onto a part *)
Section Retract.
  Context {F : ordT} (add : F -> F -> F) (z : F) (A A1 A2 : nat -> nat -> F -> Prop) (p p' : nat -> bool) (v : nat).
  Hypothesis Hadd : nonneg_add add z.
  Hypothesis Hmono : forall a b w, ole a b -> ole (add a w) (add b w).
  Hypothesis HA : forall x y w, A x y w <-> A1 x y w \/ A2 x y w.
  Hypothesis Hpos : forall x y w, A x y w -> ole z w.
  Hypothesis HA1 : forall x y w, A1 x y w -> p x = true /\ p y = true.
  Hypothesis HA2 : forall x y w, A2 x y w -> p' x = true /\ p' y = true.
  Hypothesis Hmeet : forall x, p x = true -> p' x = true -> x = v.
  Hypothesis Hpv : p v = true.
  Notation r := (collapse p v).
  Lemma walk_pos x y d : walk add z A x y d -> ole z d.
  Proof. induction 1 as [|u y d w H IH Ha]; [apply ole_refl|]. eapply ole_trans; [exact IH|]. apply Hadd; eauto. Qed.
  Lemma retract_walk x y d : walk add z A x y d -> exists d', ole d' d /\ walk add z A1 (r x) (r y) d'.
  Proof.
    induction 1 as [|u y d w H (d' & Hd & IH) Ha]; [exists z; split; [apply ole_refl|constructor]|]. pose proof (Hpos Ha) as Hw. apply HA in Ha. destruct Ha as [Ha|Ha].
    - destruct (HA1 Ha) as [P1 P2]. exists (add d' w). split; [now apply Hmono|]. econstructor; [exact IH|]. unfold collapse. now rewrite P1, P2.
    - destruct (HA2 Ha) as [P1 P2]. exists d'. assert (Hr : forall a, p' a = true -> r a = v) by (intros a Pa; unfold collapse; destruct (p a) eqn:E; auto). rewrite (Hr u P1) in IH. rewrite (Hr y P2). split; auto.
      eapply ole_trans; [exact Hd|]. apply Hadd; [exact (walk_pos H)|auto].
  Qed.
  Lemma part_walk_back x y d : walk add z A1 x y d -> walk add z A x y d /\ (x = y \/ p x = true /\ p y = true).
  Proof.
    induction 1 as [|u y d w H [IH1 IH2] Ha]; [split; [constructor|auto]|]. split; [econstructor; [exact IH1|]; apply HA; auto|]. apply HA1 in Ha. destruct IH2 as [->|[? ?]]; tauto.
  Qed.
  Lemma part_shortest_back x y d : shortest add z A1 x y d -> shortest add z A x y d.
  Proof.
    intros [H1 H2]. destruct (part_walk_back H1) as [H3 H4]. split; auto. intros d' Hd. destruct H4 as [->|[P1 P2]].
    - eapply ole_trans; [apply H2; constructor|]. exact (walk_pos Hd).
    - destruct (retract_walk Hd) as (d2 & Hle & Hk). unfold collapse in Hk. rewrite P1, P2 in Hk. eapply ole_trans; [apply H2; exact Hk|exact Hle].
  Qed.
  Variables (time time1 : nat -> nat -> option F).
  Hypothesis HS : shortest_path_filtration add z A time.
  Hypothesis HS1 : shortest_path_filtration add z A1 time1.
  Lemma wedge_time x y : time1 x y = if p x && p y then time x y else None.
  Proof.
    destruct HS as (S1 & S2 & S3), HS1 as (T1 & T2 & T3). destruct (Nat.eq_dec x y) as [->|Hne]; [rewrite S1, T1; now destruct (p y && p y)|].
    destruct (time1 x y) as [d1|] eqn:E1.
    - apply T2 in E1. destruct (part_walk_back (proj1 E1)) as [_ [|[P1 P2]]]; [congruence|]. rewrite P1, P2. cbn [andb]. apply part_shortest_back in E1. destruct (time x y) as [d|] eqn:E.
      + f_equal. exact (shortest_unique E1 (S2 _ _ _ E)).
      + exfalso. exact (S3 _ _ Hne E d1 (proj1 E1)).
    - destruct (p x) eqn:P1, (p y) eqn:P2; auto. cbn [andb]. destruct (time x y) as [d|] eqn:E; auto. apply S2 in E. destruct E as [E _]. destruct (retract_walk E) as (d2 & _ & Hk). unfold collapse in Hk. rewrite P1, P2 in Hk. exfalso. exact (T3 _ _ Hne E1 _ Hk).
  Qed.
  Lemma wedge_edge t x y : edge_at time t x y -> r x <> r y -> edge_at time1 t (r x) (r y).
  Proof.
    intros (f & Hf & Hle) Hne. destruct HS as (S1 & S2 & S3), HS1 as (T1 & T2 & T3). apply S2 in Hf. destruct (retract_walk (proj1 Hf)) as (d & Hd & Hk).
    destruct (time1 (r x) (r y)) as [d1|] eqn:E1; [|exfalso; exact (T3 _ _ Hne E1 _ Hk)]. exists d1. split; auto. apply T2 in E1. eapply ole_trans; [apply E1; exact Hk|]. eapply ole_trans; eauto.
  Qed.
End Retract.

(** ** Components *)
Section Components.
  Variables (n : nat) (E1 : list (nat * nat)) (p1 p2 : nat -> bool) (v : nat).
  Hypothesis Hmeet : forall x, p1 x = true -> p2 x = true -> x = v.
  Hypothesis Hlt1 : forall x y, In (x, y) E1 -> x < n /\ y < n.
  Hypothesis HE1 : forall x y, In (x, y) E1 -> p1 x = true /\ p1 y = true.
  Lemma wedge_connected E2 x y : (forall x y, In (x, y) E2 -> p2 x = true /\ p2 y = true) -> p2 x = true -> p2 y = true ->
    (weakly_connected (E2 ++ E1) x y <-> weakly_connected E2 x y).
  Proof.
    intros HE2 Hx Hy. split.
    - intros H. assert (G : weakly_connected E2 (collapse p2 v x) (collapse p2 v y)); [|unfold collapse in G; rewrite Hx, Hy in G; exact G].
      clear Hx Hy. induction H as [x y H|x|x y H IH|x y w H IH H' IH']; [|apply rst_refl|now apply rst_sym|eapply rst_trans; eauto].
      apply in_app_iff in H. destruct H as [H|H].
      + apply rst_step. destruct (HE2 _ _ H) as [A B]. unfold collapse. now rewrite A, B.
      + assert (Hr : forall a, p1 a = true -> collapse p2 v a = v) by (intros a Ha; unfold collapse; destruct (p2 a) eqn:P; auto). destruct (HE1 _ _ H) as [A B]. rewrite !Hr by auto. apply rst_refl.
    - apply (@weakly_map E2 (E2 ++ E1) (fun x => x)). intros a b H. apply in_app_iff. now left.
  Qed.
  Lemma wedge_representatives E2 : (forall x y, In (x, y) E2 -> x < n /\ y < n) -> (forall x y, In (x, y) E2 -> p2 x = true /\ p2 y = true) -> forall R1, component_representatives n E1 R1 ->
    exists R2 R, component_representatives n E2 R2 /\ component_representatives n (E2 ++ E1) R /\ length R + n = length R1 + length R2.
  Proof.
    intros Hlt HE2 R1 HR1. induction E2 as [|[x y] E2 IH]; [exists (seq 0 n), R1; split; [apply representatives_nil|]; split; auto; rewrite seq_length; lia|].
    destruct IH as (R2 & R & H2 & H & HL); [intros a b Hi; apply Hlt; now right|intros a b Hi; apply HE2; now right|]. destruct (Hlt x y (or_introl eq_refl)) as [Lx Ly]. destruct (HE2 x y (or_introl eq_refl)) as [Px Py].
    assert (Hiff : weakly_connected (E2 ++ E1) x y <-> weakly_connected E2 x y) by (apply wedge_connected; auto; intros a b Hi; apply HE2; now right).
    destruct (representatives_step H2 Lx Ly) as (R2' & A & B). destruct (representatives_step H Lx Ly) as (R' & C & D). exists R2', R'. split; auto. split; auto. destruct B as [[B1 B2]|[B1 B2]], D as [[D1 D2]|[D1 D2]]; try tauto; lia.
  Qed.
End Components.

Lemma representatives_pairs n E E' R : (forall x y, In (x, y) E <-> In (x, y) E') -> component_representatives n E R -> component_representatives n E' R.
Proof.
  intros H (A & B & C & D). assert (W : forall E E', (forall x y, In (x, y) E <-> In (x, y) E') -> forall x y, weakly_connected E x y -> weakly_connected E' x y) by (intros e e' He x y; apply (@weakly_map e e' (fun x => x)); intros a b; apply He).
  split; auto. split; auto. split.
  - intros v Hv. destruct (C v Hv) as (r & Hr & Hc). exists r. split; auto. eapply W; eauto.
  - intros r r' Hr Hr' Hc. apply D; auto. eapply W; [|exact Hc]. intros x y. symmetry. apply H.
Qed.

Section Parts.
  Context {F : ordT} (add : F -> F -> F) (z inf : F) (n v : nat) (edges1 edges2 : list (nat * nat * F)).
  Hypothesis Hadd : nonneg_add add z.
  Hypothesis Hmono : forall a b w, ole a b -> ole (add a w) (add b w).
  Hypothesis Hv : v < n.
  Hypothesis Hw : weighted_digraph n z (edges1 ++ edges2).
  Hypothesis Hshare : share_only v edges1 edges2.
  Definition part1 (x : nat) : bool := (x =? v) || existsb (fun e => (fst (fst e) =? x) || (snd (fst e) =? x)) edges1.
  Definition part2 (x : nat) : bool := (x =? v) || negb (part1 x).
  Lemma part1_spec x : part1 x = true <-> x = v \/ end_of edges1 x.
  Proof.
    unfold part1. rewrite orb_true_iff, Nat.eqb_eq, existsb_exists. split; intros [H|H]; auto; right.
    - destruct H as ([[a b] w] & Hi & H). cbn [fst snd] in H. rewrite orb_true_iff, !Nat.eqb_eq in H. destruct H as [->| ->]; [exists b, w|exists a, w]; auto.
    - destruct H as (y & w & [H|H]); [exists (x, y, w)|exists (y, x, w)]; (split; [auto|]); cbn [fst snd]; rewrite Nat.eqb_refl, ?orb_true_r; auto.
  Qed.
  Lemma part1_v : part1 v = true.
  Proof. apply part1_spec. now left. Qed.
  Lemma part2_v : part2 v = true.
  Proof. unfold part2. now rewrite Nat.eqb_refl. Qed.
  Lemma parts_cover x : part1 x = true \/ part2 x = true.
  Proof. unfold part2. destruct (part1 x); auto. right. apply orb_true_r. Qed.
  Lemma parts_meet x : part1 x = true -> part2 x = true -> x = v.
  Proof. unfold part2. intros ->. rewrite orb_false_r. apply Nat.eqb_eq. Qed.
  Lemma parts_meet' x : part2 x = true -> part1 x = true -> x = v.
  Proof. intros; now apply parts_meet. Qed.
  Lemma edges1_part x y w : In (x, y, w) edges1 -> part1 x = true /\ part1 y = true.
  Proof. intros H. rewrite !part1_spec. split; right; [exists y, w|exists x, w]; auto. Qed.
  Lemma edges2_part x y w : In (x, y, w) edges2 -> part2 x = true /\ part2 y = true.
  Proof.
    intros H. assert (G : forall a, end_of edges2 a -> part2 a = true).
    { intros a Ha. unfold part2. destruct (part1 a) eqn:P; [|apply orb_true_r]. rewrite orb_false_r. apply Nat.eqb_eq. apply part1_spec in P. destruct P as [|P]; auto. }
    split; apply G; [exists y, w|exists x, w]; auto.
  Qed.
  Let A := finite_edge_of inf (edges1 ++ edges2).
  Let A1 := finite_edge_of inf edges1.
  Let A2 := finite_edge_of inf edges2.
  Lemma arc_either x y w : A x y w <-> A1 x y w \/ A2 x y w.
  Proof. unfold A, A1, A2, finite_edge_of. rewrite in_app_iff. tauto. Qed.
  Lemma arc_either' x y w : A x y w <-> A2 x y w \/ A1 x y w.
  Proof. rewrite arc_either. tauto. Qed.
  Lemma arc_pos x y w : A x y w -> ole z w.
  Proof. intros [H _]. apply Hw in H. tauto. Qed.
  Lemma arc1_part x y w : A1 x y w -> part1 x = true /\ part1 y = true.
  Proof. intros [H _]. now apply edges1_part in H. Qed.
  Lemma arc2_part x y w : A2 x y w -> part2 x = true /\ part2 y = true.
  Proof. intros [H _]. now apply edges2_part in H. Qed.
  Lemma wedge_digraph1 : weighted_digraph n z edges1.
  Proof. intros x y w H. apply Hw, in_app_iff. now left. Qed.
  Lemma wedge_digraph2 : weighted_digraph n z edges2.
  Proof. intros x y w H. apply Hw, in_app_iff. now right. Qed.
  Lemma wedge_overflow1 : no_overflow add z inf (edges1 ++ edges2) -> no_overflow add z inf edges1.
  Proof. intros H x y d Hs. apply (H x y d). exact (@part_shortest_back F add z A A1 A2 part1 part2 v Hadd Hmono arc_either arc_pos arc1_part arc2_part parts_meet x y d Hs). Qed.
  Lemma wedge_overflow2 : no_overflow add z inf (edges1 ++ edges2) -> no_overflow add z inf edges2.
  Proof. intros H x y d Hs. apply (H x y d). exact (@part_shortest_back F add z A A2 A1 part2 part1 v Hadd Hmono arc_either' arc_pos arc2_part arc1_part parts_meet' x y d Hs). Qed.
  Lemma wedge_betti {K : coeffT} time time1 time2 s t k1 k2 : ~ In (v, v) (map fst edges2) -> ole s t -> no_overflow add z inf (edges1 ++ edges2) ->
    shortest_path_filtration add z A time -> shortest_path_filtration add z A1 time1 -> shortest_path_filtration add z A2 time2 ->
    path_betti_1 (K:=K) time1 n z (map fst edges1) s t k1 -> path_betti_1 (K:=K) time2 n z (map fst edges2) s t k2 -> path_betti_1 (K:=K) time n z (map fst (edges1 ++ edges2)) s t (k1 + k2).
  Proof.
    intros Hl Hst O S S1 S2 B1 B2. pose proof (filtration_digraph Hadd Hw O S) as HG.
    apply (@betti_1_wedge K F n z inf time time1 time2 (map fst (edges1 ++ edges2)) (map fst edges1) (map fst edges2) part1 part2 v); auto.
    - exact part1_v.
    - exact part2_v.
    - exact parts_cover.
    - exact parts_meet.
    - exact (@wedge_time F add z A A1 A2 part1 part2 v Hadd Hmono arc_either arc_pos arc1_part arc2_part parts_meet time time1 S S1).
    - exact (@wedge_time F add z A A2 A1 part2 part1 v Hadd Hmono arc_either' arc_pos arc2_part arc1_part parts_meet' time time2 S S2).
    - exact (@wedge_edge F add z A A1 A2 part1 part2 v Hadd Hmono arc_either arc_pos arc1_part arc2_part parts_meet time time1 S S1).
    - exact (@wedge_edge F add z A A2 A1 part2 part1 v Hadd Hmono arc_either' arc_pos arc2_part arc1_part parts_meet' time time2 S S2).
    - intros x y H. rewrite map_app, in_app_iff. split; [auto|]. apply in_map_iff in H. destruct H as ([[a b] w] & [= -> ->] & H). now apply edges1_part in H.
    - intros x y H. rewrite map_app, in_app_iff. split; [auto|]. apply in_map_iff in H. destruct H as ([[a b] w] & [= -> ->] & H). now apply edges2_part in H.
    - intros x y. rewrite map_app, in_app_iff. auto.
  Qed.
  Lemma wedge_count : exists R1 R2 R, component_representatives n (map fst edges1) R1 /\ component_representatives n (map fst edges2) R2 /\ component_representatives n (map fst (edges1 ++ edges2)) R /\ length R + n = length R1 + length R2.
  Proof.
    destruct (representatives_exist _ (run_ground wedge_digraph1)) as (R1 & H1). exists R1.
    destruct (@wedge_representatives n (map fst edges1) part1 part2 v parts_meet) with (E2 := map fst edges2) (R1 := R1) as (R2 & R & A2' & A' & HL); auto.
    - intros x y Hi. apply in_map_iff in Hi. destruct Hi as ([[a b] w] & [= -> ->] & Hi). now apply edges1_part in Hi.
    - exact (run_ground wedge_digraph2).
    - intros x y Hi. apply in_map_iff in Hi. destruct Hi as ([[a b] w] & [= -> ->] & Hi). now apply edges2_part in Hi.
    - exists R2, R. split; auto. split; auto. split; auto. eapply representatives_pairs; [|exact A']. intros x y. rewrite map_app, !in_app_iff. tauto.
  Qed.
End Parts.

(** ** C114: two digraphs that share one vertex *)
Lemma shared_vertex_no_loop :
  forall (HI HI1 HI2 : heaps) (F : ordT) (add : F -> F -> F) (z inf : F) (n v : nat) (edges1 edges2 : list (nat * nat * F)) (sp sp1 sp2 : list (nat * nat * F) -> nat -> nat -> option F),
  (N.of_nat n < 65536)%N -> weighted_digraph n z (edges1 ++ edges2) -> v < n ->
  share_only v edges1 edges2 -> (forall w, ~ In (v, v, w) edges2) ->
  nonneg_add add z -> (forall a b w, ole a b -> ole (add a w) (add b w)) -> no_overflow add z inf (edges1 ++ edges2) ->
  shortest_path_library add z n sp1 -> shortest_path_library add z n sp2 -> shortest_path_library add z n sp ->
  exists N : nat, forall fuel fuel1 fuel2, N < fuel -> N < fuel1 -> N < fuel2 ->
  exists ess0 ess1 prs1 ess0_1 ess1_1 prs1_1 ess0_2 ess1_2 prs1_2,
    grpph_py HI1 fuel1 z inf sp1 n edges1 = Ok ([ess0_1; ess1_1], [[]; prs1_1]) /\
    grpph_py HI2 fuel2 z inf sp2 n edges2 = Ok ([ess0_2; ess1_2], [[]; prs1_2]) /\
    grpph_py HI fuel z inf sp n (edges1 ++ edges2) = Ok ([ess0; ess1], [[]; prs1]) /\
    length ess0 + n = length ess0_1 + length ess0_2 /\ Permutation ess1 (ess1_1 ++ ess1_2) /\ Permutation prs1 (prs1_1 ++ prs1_2).
Proof.
  intros HI HI1 HI2 F add z inf n v edges1 edges2 sp sp1 sp2 Hn Hw Hv Hsh Hl Hadd Hmono O L1 L2 L.
  assert (Hl' : ~ In (v, v) (map fst edges2)) by (intros H; apply in_map_iff in H; destruct H as ([[a b] w] & [= -> ->] & H); exact (Hl w H)).
  pose proof (@wedge_digraph1 F z n edges1 edges2 Hw) as Hw1. pose proof (@wedge_digraph2 F z n edges1 edges2 Hw) as Hw2.
  pose proof (wedge_overflow1 Hadd Hmono Hw Hsh O) as O1. pose proof (wedge_overflow2 Hadd Hmono Hw Hsh O) as O2.
  destruct (filtration_exists inf Hw1 L1) as (time1 & S1). destruct (filtration_exists inf Hw2 L2) as (time2 & S2). destruct (filtration_exists inf Hw L) as (time & S).
  destruct (weighted_run HI1 Hn Hw1 Hadd O1 L1 S1) as (N1 & R1). destruct (weighted_run HI2 Hn Hw2 Hadd O2 L2 S2) as (N2 & R2). destruct (weighted_run HI Hn Hw Hadd O L S) as (N & R).
  destruct (C58_births_and_deaths HI1 Hn Hw1 Hadd O1 L1) as (M1 & Q1). destruct (C58_births_and_deaths HI2 Hn Hw2 Hadd O2 L2) as (M2 & Q2). destruct (C58_births_and_deaths HI Hn Hw Hadd O L) as (M & Q).
  exists (N1 + N2 + N + M1 + M2 + M). intros fuel fuel1 fuel2 H H1 H2.
  destruct (R fuel ltac:(lia)) as (e0 & e1 & p1 & reps & E & _ & B & D & A & _). destruct (R1 fuel1 ltac:(lia)) as (e01 & e11 & p11 & reps1 & E1 & _ & B1 & D1 & A1 & _). destruct (R2 fuel2 ltac:(lia)) as (e02 & e12 & p12 & reps2 & E2 & _ & B2 & D2 & A2 & _).
  destruct (Q fuel ltac:(lia)) as (? & ? & ? & E' & _ & _ & C). rewrite E in E'. injection E' as <- <- <-.
  destruct (Q1 fuel1 ltac:(lia)) as (? & ? & ? & E1' & _ & _ & C1). rewrite E1 in E1'. injection E1' as <- <- <-.
  destruct (Q2 fuel2 ltac:(lia)) as (? & ? & ? & E2' & _ & _ & C2). rewrite E2 in E2'. injection E2' as <- <- <-.
  exists e0, e1, p1, e01, e11, p11, e02, e12, p12. split; auto. split; auto. split; auto. split.
  - destruct (wedge_count inf Hw Hsh) as (r1 & r2 & r & X1 & X2 & X & HL). now rewrite (C _ X), (C1 _ X1), (C2 _ X2).
  - apply bars_determined.
    + intros b d Hb. apply D in Hb. destruct Hb as (-> & Hb & _). exact Hb.
    + intros b d Hb. apply in_app_iff in Hb. destruct Hb as [Hb|Hb]; [apply D1 in Hb|apply D2 in Hb]; destruct Hb as (-> & Hb & _); exact Hb.
    + intros s t Hst. rewrite bars_alive_app. symmetry. apply (A s t Hst).
      refine (wedge_betti Hadd Hmono Hv Hw Hsh Hl' Hst O S S1 S2 _ _); [now apply (A1 s t Hst)|now apply (A2 s t Hst)].
Qed.
Lemma share_only_sym {A : Type} v (edges1 edges2 : list (nat * nat * A)) : share_only v edges1 edges2 -> share_only v edges2 edges1.
Proof. intros H x H2 H1. now apply H. Qed.

Theorem C114_shared_vertex :
  forall (HI HI1 HI2 : heaps) (F : ordT) (add : F -> F -> F) (z inf : F) (n v : nat) (edges1 edges2 : list (nat * nat * F)) (sp sp1 sp2 : list (nat * nat * F) -> nat -> nat -> option F),
  (N.of_nat n < 65536)%N -> weighted_digraph n z (edges1 ++ edges2) -> v < n ->
  share_only v edges1 edges2 -> ~ (In (v, v) (map fst edges1) /\ In (v, v) (map fst edges2)) ->
  nonneg_add add z -> (forall a b w, ole a b -> ole (add a w) (add b w)) -> no_overflow add z inf (edges1 ++ edges2) ->
  shortest_path_library add z n sp1 -> shortest_path_library add z n sp2 -> shortest_path_library add z n sp ->
  exists N : nat, forall fuel fuel1 fuel2, N < fuel -> N < fuel1 -> N < fuel2 ->
  exists ess0 ess1 prs1 ess0_1 ess1_1 prs1_1 ess0_2 ess1_2 prs1_2,
    grpph_py HI1 fuel1 z inf sp1 n edges1 = Ok ([ess0_1; ess1_1], [[]; prs1_1]) /\
    grpph_py HI2 fuel2 z inf sp2 n edges2 = Ok ([ess0_2; ess1_2], [[]; prs1_2]) /\
    grpph_py HI fuel z inf sp n (edges1 ++ edges2) = Ok ([ess0; ess1], [[]; prs1]) /\
    length ess0 + n = length ess0_1 + length ess0_2 /\ Permutation ess1 (ess1_1 ++ ess1_2) /\ Permutation prs1 (prs1_1 ++ prs1_2).
Proof.
  intros HI HI1 HI2 F add z inf n v edges1 edges2 sp sp1 sp2 Hn Hw Hv Hsh Hl Hadd Hmono O L1 L2 L.
  destruct (in_dec (fun a b : nat * nat => ltac:(repeat decide equality) : {a = b} + {a <> b}) (v, v) (map fst edges2)) as [H2|H2].
  - assert (H1 : forall w, ~ In (v, v, w) edges1) by (intros w H; apply Hl; split; auto; apply in_map_iff; exists (v, v, w); auto).
    assert (Hsw : forall e, In e (edges2 ++ edges1) <-> In e (edges1 ++ edges2)) by (intros e; rewrite !in_app_iff; tauto).
    assert (Hw' : weighted_digraph n z (edges2 ++ edges1)) by (intros x y w H; apply Hw, Hsw, H).
    assert (Harc : forall x y w, finite_edge_of inf (edges2 ++ edges1) x y w <-> finite_edge_of inf (edges1 ++ edges2) x y w) by (intros x y w; unfold finite_edge_of; now rewrite Hsw).
    assert (Hwk : forall B B' : nat -> nat -> F -> Prop, (forall x y w, B x y w <-> B' x y w) -> forall x y d, walk add z B x y d -> walk add z B' x y d).
    { intros B B' HB x y d H. induction H as [|u y d w H IH Ha]; [constructor|]. econstructor; [exact IH|]. now apply HB. }
    assert (O' : no_overflow add z inf (edges2 ++ edges1)).
    { intros x y d [A B]. apply (O x y d). split; [now apply (Hwk _ _ Harc)|]. intros d' Hd. apply B. apply (Hwk _ _ (fun x y w => iff_sym (Harc x y w))); auto. }
    destruct (@shared_vertex_no_loop HI HI2 HI1 F add z inf n v edges2 edges1 sp sp2 sp1 Hn Hw' Hv (share_only_sym Hsh) H1 Hadd Hmono O' L2 L1 L) as (N & HN).
    destruct (@C67_digraph_determines_bars HI HI F add z inf n (edges1 ++ edges2) (edges2 ++ edges1) sp sp (fun x => x) Hn Hw Hw' Hadd O L L) as (M & HM); [split; auto; split; auto; intros a b w _ _; symmetry; apply Hsw|].
    exists (N + M). intros fuel fuel1 fuel2 Hf Hf1 Hf2. destruct (HN fuel fuel2 fuel1 ltac:(lia) ltac:(lia) ltac:(lia)) as (e0 & e1 & q1 & e01 & e11 & q11 & e02 & e12 & q12 & A1 & A2 & A3 & A4 & A5 & A6).
    destruct (HM fuel fuel ltac:(lia) ltac:(lia)) as (f0 & f1 & g0 & g1 & f0' & f1' & g0' & g1' & B1 & B2 & B3 & B4 & B5 & B6). rewrite A3 in B2. injection B2 as <- <- <- <-.
    apply Permutation_sym, Permutation_nil in B5. subst g0. exists f0, f1, g1, e02, e12, q12, e01, e11, q11. split; auto. split; auto. split; auto. split; [rewrite (Permutation_length B3); lia|].
    split; [rewrite B4, A5|rewrite B6, A6]; apply Permutation_app_comm.
  - apply (@shared_vertex_no_loop HI HI1 HI2 F add z inf n v edges1 edges2); auto. intros w H. apply H2. apply in_map_iff. exists (v, v, w). auto.
Qed.
Print Assumptions C114_shared_vertex.

(** the edges of [T] form a forest: as many distinct pairs as it takes to join [n] vertices into the components of [T] *)
Definition forest {A : Type} (n : nat) (T : list (nat * nat * A)) : Prop :=
  exists E R, NoDup E /\ (forall e, In e E <-> In e (map fst T)) /\ component_representatives n (map fst T) R /\ length E + length R = n.

Lemma representatives_le n E R R' : component_representatives n E R -> component_representatives n E R' -> length R <= length R'.
Proof.
  intros (A1 & A2 & A3 & A4) (B1 & B2 & B3 & B4).
  destruct (@list_choice nat_ord nat (fun r r' => In r' R' /\ weakly_connected E r r') 0 R) as (f & Hf); [intros r Hr; apply B3; auto|].
  apply Nat.le_trans with (length (map f R)); [apply Nat.eq_le_incl; symmetry; exact (map_length f R)|]. apply NoDup_incl_length; [|intros y Hy; apply in_map_iff in Hy; destruct Hy as (x & <- & Hx); now apply Hf].
  clear -A1 A4 Hf. assert (Hinj : forall a b, In a R -> In b R -> f a = f b -> a = b).
  { intros a b Ha Hb He. apply A4; auto. destruct (Hf a Ha) as [_ X]. destruct (Hf b Hb) as [_ Y]. rewrite He in X. eapply rst_trans; [exact X|]. now apply rst_sym. }
  clear A4 Hf. induction A1 as [|a l Ha A1 IH]; [constructor|]. cbn [map]. constructor; [|apply IH; intros x y Hx Hy; apply Hinj; now right].
  intros H. apply in_map_iff in H. destruct H as (b & Hb & Hi). apply Ha. rewrite <- (Hinj b a); auto; [now right|now left].
Qed.
Lemma forest_no_loop {A : Type} n (T : list (nat * nat * A)) v : (forall x y w, In (x, y, w) T -> x < n /\ y < n) -> forest n T -> ~ In (v, v) (map fst T).
Proof.
  intros Hlt (E & R & HN & HE & HR & HL) Hin. apply HE in Hin. destruct (in_split _ _ Hin) as (l1 & l2 & ->). set (E' := l1 ++ l2).
  assert (HN' : NoDup E') by (apply NoDup_remove_1 in HN; exact HN).
  assert (Hlt' : forall x y, In (x, y) (l1 ++ (v, v) :: l2) -> x < n /\ y < n) by (intros x y H; apply HE, in_map_iff in H; destruct H as ([[a b] w] & [= -> ->] & H); eauto).
  assert (HE' : forall x y, In (x, y) E' -> x < n /\ y < n) by (intros x y H; apply Hlt'; unfold E' in H; rewrite in_app_iff in *; simpl; tauto).
  destruct (@circuit_basis Z2_coeff n E' HN' HE') as (R' & k & Z & HR' & Hk & _).
  destruct (Hlt' v v Hin) as [Hv _]. destruct (@representatives_step n E' R' v v HR' Hv Hv) as (R2 & HR2 & [[_ H]|[H _]]); [|apply H, rst_refl].
  assert (HR3 : component_representatives n (map fst T) R2) by (eapply representatives_pairs; [|exact HR2]; intros x y; rewrite <- HE; unfold E'; simpl; rewrite !in_app_iff; simpl; tauto).
  pose proof (representatives_le HR3 HR). pose proof (representatives_le HR HR3). rewrite app_length in HL. unfold E' in Hk. rewrite app_length in Hk. cbn [length] in HL. lia.
Qed.

(** Trees attached at a vertex change nothing in dimension 1. *)
Corollary C114_attached_forest :
  forall (HI HI1 : heaps) (F : ordT) (add : F -> F -> F) (z inf : F) (n v : nat) (edges T : list (nat * nat * F)) (sp sp1 : list (nat * nat * F) -> nat -> nat -> option F),
  (N.of_nat n < 65536)%N -> weighted_digraph n z (edges ++ T) -> v < n ->
  share_only v edges T -> forest n T ->
  nonneg_add add z -> (forall a b w, ole a b -> ole (add a w) (add b w)) -> no_overflow add z inf (edges ++ T) ->
  shortest_path_library add z n sp1 -> shortest_path_library add z n sp ->
  exists N : nat, forall fuel fuel1, N < fuel -> N < fuel1 ->
  exists ess0 ess1 prs1 ess0_1 ess1_1 prs1_1,
    grpph_py HI1 fuel1 z inf sp1 n edges = Ok ([ess0_1; ess1_1], [[]; prs1_1]) /\
    grpph_py HI fuel z inf sp n (edges ++ T) = Ok ([ess0; ess1], [[]; prs1]) /\
    Permutation ess1 ess1_1 /\ Permutation prs1 prs1_1.
Proof.
  intros HI HI1 F add z inf n v edges T sp sp1 Hn Hw Hv Hsh HT Hadd Hmono O L1 L.
  pose proof (@wedge_digraph2 F z n edges T Hw) as Hw2. pose proof (wedge_overflow2 Hadd Hmono Hw Hsh O) as O2.
  assert (Hl : ~ In (v, v) (map fst T)) by (apply (@forest_no_loop F n T v); auto; intros x y w H; apply Hw2 in H; tauto).
  destruct (@C114_shared_vertex HI HI1 HI F add z inf n v edges T sp sp1 sp Hn Hw Hv Hsh (fun H => Hl (proj2 H)) Hadd Hmono O L1 L L) as (N & HN).
  destruct HT as (E & R & HE & HEi & HR & HL).
  destruct (@C59_circuit_rank_bound HI F add z inf n T sp Hn Hw2 Hadd O2 L) as (M & HM).
  exists (N + M). intros fuel fuel1 Hf Hf1. destruct (HN fuel fuel1 (S (N + M)) ltac:(lia) ltac:(lia) ltac:(lia)) as (e0 & e1 & q1 & e01 & e11 & q11 & e02 & e12 & q12 & E1 & E2 & E3 & _ & P1 & P2).
  destruct (HM (S (N + M)) ltac:(lia)) as (? & ? & ? & E2' & Hc). rewrite E2 in E2'. injection E2' as <- <- <-. specialize (Hc E R HE HEi HR).
  destruct e12; [|cbn [length] in Hc; lia]. destruct q12; [|cbn [length] in Hc; lia]. rewrite app_nil_r in P1, P2. exists e0, e1, q1, e01, e11, q11. auto.
Qed.
Print Assumptions C114_attached_forest.

(** a directed triangle and a transitive one, glued at vertex 0; and the same loop on both sides, where the claim fails *)
Example C114_ex :
  let edges1 := [(0, 1, 1); (1, 2, 2); (2, 0, 3)] : list (nat * nat * nat_ord) in
  let edges2 := [(0, 3, 1); (3, 4, 4); (0, 4, 7)] : list (nat * nat * nat_ord) in
  let sp := fun n e => bellman (F:=nat_ord) Nat.add 0 e n in
  let run := grpph_py (F:=nat_ord) list_heaps 90 0 1000 (sp 5) 5 in
  weighted_digraph (F:=nat_ord) 5 0 (edges1 ++ edges2) /\ share_only 0 edges1 edges2 /\ ~ (In (0, 0) (map fst edges1) /\ In (0, 0) (map fst edges2)) /\
  run edges1 = Ok ([[0; 0; 0]; []], [[]; [(0, 3)]]) /\
  run edges2 = Ok ([[0; 0; 0]; []], [[]; [(0, 5)]]) /\
  run (edges1 ++ edges2) = Ok ([[0]; []], [[]; [(0, 3); (0, 5)]]) /\
  run [(0, 0, 1)] = Ok ([[0; 0; 0; 0; 0]; [0]], [[]; []]) /\ run ([(0, 0, 1)] ++ [(0, 0, 1)]) = Ok ([[0; 0; 0; 0; 0]; [0]], [[]; []]).
Proof.
  cbv zeta. split; [intros u v w H; simpl in H; repeat (destruct H as [[= <- <- <-]|H]; [repeat split; auto; try lia; apply ole_nat; lia|]); destruct H|].
  split; [intros x (y & w & H) (y' & w' & H'); simpl in H, H'; repeat match goal with K : _ \/ _ |- _ => destruct K as [K|K] end; try contradiction; congruence|].
  split; [simpl; intros [H _]; repeat (destruct H as [H|H]; [congruence|]); destruct H|].
  repeat split; vm_compute; reflexivity.
Qed.

(** the directed triangle with two more vertices hanging on vertex 0 *)
Example C114_forest_ex :
  let edges := [(0, 1, 1); (1, 2, 2); (2, 0, 3)] : list (nat * nat * nat_ord) in
  let T := [(3, 0, 1); (3, 4, 4)] : list (nat * nat * nat_ord) in
  let run := grpph_py (F:=nat_ord) list_heaps 90 0 1000 (fun e => bellman (F:=nat_ord) Nat.add 0 e 5) 5 in
  share_only 0 edges T /\ forest 5 T /\ run edges = Ok ([[0; 0; 0]; []], [[]; [(0, 3)]]) /\ run (edges ++ T) = Ok ([[0]; []], [[]; [(0, 3)]]).
Proof.
  cbv zeta. split; [intros x (y & w & H) (y' & w' & H'); simpl in H, H'; repeat match goal with K : _ \/ _ |- _ => destruct K as [K|K] end; try contradiction; congruence|].
  split; [|repeat split; vm_compute; reflexivity].
  exists [(3, 0); (3, 4)], [0; 1; 2]. split; [repeat constructor; simpl; intuition congruence|]. split; [simpl; tauto|]. split; [|reflexivity].
  assert (Hs : forall a b, weakly_connected [(3, 0); (3, 4)] a b -> (if (a =? 1) || (a =? 2) then a else 0) = (if (b =? 1) || (b =? 2) then b else 0)).
  { intros a b H. induction H as [a b H|a|a b H IH|a b c H IH H' IH']; auto; [simpl in H; destruct H as [[= <- <-]|[[= <- <-]|[]]]; reflexivity|congruence]. }
  assert (H30 : weakly_connected [(3, 0); (3, 4)] 3 0) by (apply rst_step; simpl; auto).
  assert (H34 : weakly_connected [(3, 0); (3, 4)] 3 4) by (apply rst_step; simpl; auto).
  split; [repeat constructor; simpl; intuition congruence|]. split; [simpl; intuition lia|]. split.
  - intros u Hu. destruct u as [|[|[|[|[|u]]]]]; [exists 0|exists 1|exists 2|exists 0|exists 0|lia]; (split; [simpl; auto|]); try apply rst_refl; [exact H30|]. eapply rst_trans; [apply rst_sym; exact H34|exact H30].
  - intros r r' Hr Hr' H. apply Hs in H. simpl in Hr, Hr'. destruct Hr as [<-|[<-|[<-|[]]]], Hr' as [<-|[<-|[<-|[]]]]; simpl in H; auto; discriminate.
Qed.
