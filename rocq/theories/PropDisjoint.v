(** Property theorems C104: grpph on a disjoint union of digraphs. *)
From Coq Require Import Permutation Lia Relations.
From Verif Require Import Base Fields FieldsFacts Spec LinAlg Columns GrpphCells Grpph SpecGrpph SpecPath SpecWeighted PathBasis PathBetti Weighted WeightedRun ShortestPaths PropWeighted PropGrpphExamples BarsUnique Relabel PropRelabel Persistence SplitBetti DisjointPaths.
Set Implicit Arguments.

(** the edges with every vertex moved up by [m] *)
Definition shift_edges {A : Type} (m : nat) (edges : list (nat * nat * A)) : list (nat * nat * A) := map (fun e => (m + fst (fst e), m + snd (fst e), snd e)) edges.

(** ** Walks stay in their part *)
Section Parts.
  Context {F : ordT} (add : F -> F -> F) (z : F) (A A1 : nat -> nat -> F -> Prop) (p : nat -> bool).
  Hypothesis HA : forall u v w, A u v w -> p u = p v.
  Hypothesis HA1 : forall u v w, A1 u v w <-> A u v w /\ p u = true.
  Lemma part_walk x y d : p x = true -> (walk add z A1 x y d <-> walk add z A x y d).
  Proof.
    intros Hx. split.
    - induction 1 as [|u y d w H IH Ha]; [constructor|]. econstructor; [exact IH|]. now apply HA1.
    - intros H. assert (G : walk add z A1 x y d /\ p y = true); [|tauto]. induction H as [|u y d w H [IH Hp] Ha]; [split; [constructor|auto]|]. split; [|rewrite <- (HA Ha); auto]. econstructor; [exact IH|]. now apply HA1.
  Qed.
  Lemma other_walk x y d : p x = false -> walk add z A1 x y d -> y = x /\ d = z.
  Proof. intros Hx. induction 1 as [|u y d w H [-> _] Ha]; auto. apply HA1 in Ha. destruct Ha as [_ Ha]. congruence. Qed.
  Lemma part_shortest x y d : p x = true -> (shortest add z A1 x y d <-> shortest add z A x y d).
  Proof. intros Hx. unfold shortest. rewrite (part_walk y d Hx). split; intros [H1 H2]; (split; auto); intros d' Hd; apply H2; now apply part_walk. Qed.
  Lemma part_time time time1 : shortest_path_filtration add z A time -> shortest_path_filtration add z A1 time1 -> forall x y, time1 x y = if p x then time x y else None.
  Proof.
    intros (S1 & S2 & S3) (T1 & T2 & T3) x y. destruct (Nat.eq_dec x y) as [->|Hne]; [rewrite S1, T1; now destruct (p y)|]. destruct (p x) eqn:Ep.
    - destruct (time x y) as [d|] eqn:E; destruct (time1 x y) as [d'|] eqn:E'; auto.
      + f_equal. apply T2, part_shortest in E'; auto. exact (shortest_unique E' (S2 _ _ _ E)).
      + apply S2 in E. exfalso. exact (T3 _ _ Hne E' d (proj2 (part_walk y d Ep) (proj1 E))).
      + apply T2 in E'. exfalso. exact (S3 _ _ Hne E d' (proj1 (part_walk y d' Ep) (proj1 E'))).
    - destruct (time1 x y) as [d'|] eqn:E'; auto. apply T2 in E'. destruct (other_walk Ep (proj1 E')). congruence.
  Qed.
  Lemma time_same time : shortest_path_filtration add z A time -> forall x y f, time x y = Some f -> p x = p y.
  Proof.
    intros (S1 & S2 & S3) x y f E. apply S2 in E. destruct E as [H _]. induction H as [|u y d w H IH Ha]; auto. rewrite IH. eauto.
  Qed.
End Parts.

(** ** More vertices without edges *)
Section More.
  Context {K : coeffT} {F : ordT}.
  Add Field KFMore : (F_field K).
  Variables (n n' : nat) (z : F) (time : nat -> nat -> option F) (E : list (nat * nat)).
  Hypothesis Hn : n <= n'.
  Hypothesis Ht : forall x y f, time x y = Some f -> x < n /\ y < n.
  Hypothesis HE : forall x y, In (x, y) E -> x < n /\ y < n.
  Lemma vsum_more (f : nat -> option K) : (forall x, f x <> f0 -> x < n) -> vsum (seq 0 n') f = vsum (seq 0 n) f.
  Proof. intros H. apply vsum_support; try apply seq_NoDup. intros x Hx. apply H in Hx. rewrite !in_seq. lia. Qed.
  Lemma edge_bdry_more t (e : edge_chain (K:=K)) v : edges_at time z E t e -> edge_bdry n' e v = edge_bdry n e v.
  Proof.
    intros He. assert (Hs : forall x y, e x y <> f0 -> x < n /\ y < n) by (intros x y H; destruct (He x y H) as [[H' _]|[_ (f & H' & _)]]; eauto).
    unfold edge_bdry. rewrite vsum_more.
    - apply vsum_ext. intros x _. apply vsum_more. intros y Hy. apply (Hs x y). intros Ez. rewrite Ez in Hy. apply Hy. ring.
    - intros x Hx. destruct (Nat.lt_ge_cases x n) as [|Hge]; auto. exfalso. apply Hx, vsum_0. intros y _. destruct (fscalar_dec (e x y)) as [->|Hne]; [ring|]. destruct (Hs _ _ Hne). lia.
  Qed.
  Lemma path_bdry_more t (u : path_chain (K:=K)) x y : (forall a b c, u a b c <> f0 -> edge_at time t a b /\ edge_at time t b c) -> path_bdry n' u x y = path_bdry n u x y.
  Proof.
    intros Hu. assert (Hs : forall a b c, u a b c <> f0 -> a < n /\ b < n /\ c < n) by (intros a b c H; destruct (Hu a b c H) as [(f & H1 & _) (g & H2 & _)]; apply Ht in H1, H2; tauto).
    assert (Hz : forall a b c, fmul (u a b c) (path_boundary a b c x y) <> f0 -> a < n /\ b < n /\ c < n) by (intros a b c H; apply Hs; intros Ez; rewrite Ez in H; apply H; ring).
    unfold path_bdry. rewrite vsum_more.
    - apply vsum_ext. intros a _. rewrite vsum_more.
      + apply vsum_ext. intros b _. apply vsum_more. intros c Hc. now apply Hz in Hc.
      + intros b Hb. destruct (Nat.lt_ge_cases b n) as [|Hge]; auto. exfalso. apply Hb, vsum_0. intros c _. destruct (fscalar_dec (fmul (u a b c) (path_boundary a b c x y))) as [|Hne]; auto. apply Hz in Hne. lia.
    - intros a Ha. destruct (Nat.lt_ge_cases a n) as [|Hge]; auto. exfalso. apply Ha, vsum_0. intros b _. apply vsum_0. intros c _. destruct (fscalar_dec (fmul (u a b c) (path_boundary a b c x y))) as [|Hne]; auto. apply Hz in Hne. lia.
  Qed.
  Lemma cycle_more t (e : edge_chain (K:=K)) : cycle_1 time n z E t e <-> cycle_1 time n' z E t e.
  Proof. split; intros [H1 H2]; (split; auto); intros v; [rewrite (edge_bdry_more v H1)|rewrite <- (edge_bdry_more v H1)]; auto. Qed.
  Lemma boundary_more t (e : edge_chain (K:=K)) : boundary_1 time n t e <-> boundary_1 time n' t e.
  Proof.
    split; intros (u & [H1 H2] & H3); exists u.
    - split; [split; auto; intros x y; rewrite (path_bdry_more u x y H1); auto|]. intros x y. rewrite (path_bdry_more u x y H1). auto.
    - split; [split; auto; intros x y; rewrite <- (path_bdry_more u x y H1); auto|]. intros x y. rewrite <- (path_bdry_more u x y H1). auto.
  Qed.
  Lemma betti_1_more s t k : path_betti_1 (K:=K) time n z E s t k -> path_betti_1 (K:=K) time n' z E s t k.
  Proof.
    intros (I & bars & Z & H1 & H2 & H3 & H4 & H5). exists I, bars, Z. split; auto. split; auto. split; [|split].
    - intros b Hb. now apply cycle_more, H3.
    - intros e He. apply cycle_more in He. destruct (H4 e He) as (a & Ha). exists a. now apply boundary_more.
    - intros a Ha. apply H5. now apply boundary_more.
  Qed.
End More.

(** ** Components of a disjoint union *)
Lemma weakly_part (E E1 : list (nat * nat)) (p : nat -> bool) : (forall x y, In (x, y) E -> p x = p y) -> (forall x y, In (x, y) E1 <-> In (x, y) E /\ p x = true) ->
  forall x y, weakly_connected E x y -> p x = p y /\ (p x = true -> weakly_connected E1 x y).
Proof.
  intros HE HE1 x y H. induction H as [x y H|x|x y H [IH1 IH2]|x y w H [IH1 IH2] H' [IH3 IH4]].
  - split; [eauto|]. intros Hp. apply rst_step. now apply HE1.
  - split; auto. intros _. apply rst_refl.
  - split; auto. intros Hp. apply rst_sym, IH2. congruence.
  - split; [congruence|]. intros Hp. eapply rst_trans; [apply IH2; auto|apply IH4; congruence].
Qed.
Lemma weakly_map (E E' : list (nat * nat)) (f : nat -> nat) : (forall x y, In (x, y) E -> In (f x, f y) E') -> forall x y, weakly_connected E x y -> weakly_connected E' (f x) (f y).
Proof. intros H x y. induction 1; [apply rst_step; auto|apply rst_refl|now apply rst_sym|eapply rst_trans; eauto]. Qed.

Section Union.
  Context {F : ordT} (add : F -> F -> F) (z inf : F) (n1 n2 : nat) (edges1 edges2 : list (nat * nat * F)).
  Hypothesis Hadd : nonneg_add add z.
  Hypothesis Hw1 : weighted_digraph n1 z edges1.
  Hypothesis Hw2 : weighted_digraph n2 z edges2.
  Let edges := edges1 ++ shift_edges n1 edges2.
  Let n := n1 + n2.
  Let p (x : nat) : bool := x <? n1.
  Let np (x : nat) : bool := negb (p x).
  Let sh := shift_edges n1 edges2.
  Lemma in_shift u v w : In (u, v, w) sh <-> exists a b, u = n1 + a /\ v = n1 + b /\ In (a, b, w) edges2.
  Proof.
    unfold sh, shift_edges. rewrite in_map_iff. split.
    - intros ([[a b] c] & [= <- <- <-] & H). eauto.
    - intros (a & b & -> & -> & H). exists (a, b, w). auto.
  Qed.
  Lemma in_union u v w : In (u, v, w) edges -> p u = p v /\ (In (u, v, w) edges1 <-> p u = true) /\ (In (u, v, w) sh <-> np u = true).
  Proof.
    unfold edges, np, p. intros H. apply in_app_iff in H. fold sh in H.
    assert (X1 : In (u, v, w) edges1 -> u < n1 /\ v < n1) by (intros H'; apply Hw1 in H'; tauto).
    assert (X2 : In (u, v, w) sh -> n1 <= u /\ n1 <= v) by (intros H'; apply in_shift in H'; destruct H' as (a & b & -> & -> & _); lia).
    destruct (Nat.ltb_spec u n1), (Nat.ltb_spec v n1); cbn [negb]; (split; [try reflexivity|split; split; try reflexivity; try discriminate; intros Hx]); try (destruct H as [H|H]; [apply X1 in H|apply X2 in H]; lia); try (apply X1 in Hx; lia); try (apply X2 in Hx; lia); destruct H as [H|H]; auto; exfalso; try (apply X1 in H; lia); try (apply X2 in H; lia).
  Qed.
  Lemma union_digraph : weighted_digraph n z edges.
  Proof.
    intros u v w H. unfold edges in H. apply in_app_iff in H. unfold n. destruct H as [H|H]; [apply Hw1 in H; destruct H as (A & B & C); repeat split; auto; lia|].
    apply in_shift in H. destruct H as (a & b & -> & -> & H). apply Hw2 in H. destruct H as (A & B & C). repeat split; auto; lia.
  Qed.
  Lemma shift_digraph : weighted_digraph n z sh.
  Proof. intros u v w H. apply union_digraph. unfold edges. apply in_app_iff. now right. Qed.
  Lemma wider_digraph : weighted_digraph n z edges2.
  Proof. intros u v w H. apply Hw2 in H. unfold n. destruct H as (A & B & C). repeat split; auto; lia. Qed.
  (** vertices of the second part to their places *)
  Let sg (x : nat) : nat := if x <? n2 then n1 + x else if x <? n then x - n2 else x.
  Let ta (x : nat) : nat := if x <? n1 then n2 + x else if x <? n then x - n1 else x.
  Lemma sg_inverse : inverse_pair n sg ta.
  Proof.
    unfold inverse_pair, sg, ta, n. split; [|split]; intros x.
    - destruct (Nat.ltb_spec x n2); [destruct (Nat.ltb_spec (n1 + x) n1); [lia|]; destruct (Nat.ltb_spec (n1 + x) (n1 + n2)); lia|].
      destruct (Nat.ltb_spec x (n1 + n2)); [destruct (Nat.ltb_spec (x - n2) n1); lia|]. destruct (Nat.ltb_spec x n1); [lia|]. destruct (Nat.ltb_spec x (n1 + n2)); lia.
    - destruct (Nat.ltb_spec x n1); [destruct (Nat.ltb_spec (n2 + x) n2); [lia|]; destruct (Nat.ltb_spec (n2 + x) (n1 + n2)); lia|].
      destruct (Nat.ltb_spec x (n1 + n2)); [destruct (Nat.ltb_spec (x - n1) n2); lia|]. destruct (Nat.ltb_spec x n2); [lia|]. destruct (Nat.ltb_spec x (n1 + n2)); lia.
    - destruct (Nat.ltb_spec x n2); [lia|]. destruct (Nat.ltb_spec x (n1 + n2)); lia.
  Qed.
  Lemma sg_shift x : x < n2 -> sg x = n1 + x.
  Proof. intros H. unfold sg. destruct (Nat.ltb_spec x n2); lia. Qed.
  Lemma sg_edges u v w : u < n -> v < n -> (In (u, v, w) edges2 <-> In (sg u, sg v, w) sh).
  Proof.
    intros Hu Hv. rewrite in_shift. split.
    - intros H. pose proof (Hw2 _ _ _ H) as (A & B & _). exists u, v. rewrite !sg_shift by auto. auto.
    - intros (a & b & E1 & E2 & H). pose proof (Hw2 _ _ _ H) as (A & B & _). rewrite <- (sg_shift A) in E1. rewrite <- (sg_shift B) in E2.
      destruct sg_inverse as (I1 & _). rewrite <- (I1 u), <- (I1 v), E1, E2, !I1. exact H.
  Qed.
  Let arc := finite_edge_of inf edges.
  Lemma arc_same u v w : arc u v w -> p u = p v.
  Proof. intros [H _]. now apply in_union in H. Qed.
  Lemma arc_same' u v w : arc u v w -> np u = np v.
  Proof. intros H. unfold np. now rewrite (arc_same H). Qed.
  Lemma arc_1 u v w : finite_edge_of inf edges1 u v w <-> arc u v w /\ p u = true.
  Proof.
    unfold arc, finite_edge_of. split.
    - intros [H Hf]. assert (Hin : In (u, v, w) edges) by (unfold edges; apply in_app_iff; now left). split; auto. now apply (in_union _ _ _ Hin).
    - intros [[H Hf] Hp]. split; auto. now apply (in_union _ _ _ H).
  Qed.
  Lemma arc_2 u v w : finite_edge_of inf sh u v w <-> arc u v w /\ np u = true.
  Proof.
    unfold arc, finite_edge_of. split.
    - intros [H Hf]. assert (Hin : In (u, v, w) edges) by (unfold edges; apply in_app_iff; now right). split; auto. now apply (in_union _ _ _ Hin).
    - intros [[H Hf] Hp]. split; auto. now apply (in_union _ _ _ H).
  Qed.
  Lemma pairs_same x y : In (x, y) (map fst edges) -> p x = p y.
  Proof. intros H. apply in_map_iff in H. destruct H as ([[u v] w] & [= -> ->] & H). now apply in_union in H. Qed.
  Lemma pairs_1 x y : In (x, y) (map fst edges1) <-> In (x, y) (map fst edges) /\ p x = true.
  Proof.
    rewrite !in_map_iff. split.
    - intros ([[u v] w] & [= -> ->] & H). assert (Hin : In (x, y, w) edges) by (unfold edges; apply in_app_iff; now left). split; [exists (x, y, w); auto|]. now apply (in_union _ _ _ Hin).
    - intros [([[u v] w] & [= -> ->] & H) Hp]. exists (x, y, w). split; auto. now apply (in_union _ _ _ H).
  Qed.
  Lemma pairs_2 x y : In (x, y) (map fst sh) <-> In (x, y) (map fst edges) /\ np x = true.
  Proof.
    rewrite !in_map_iff. split.
    - intros ([[u v] w] & [= -> ->] & H). assert (Hin : In (x, y, w) edges) by (unfold edges; apply in_app_iff; now right). split; [exists (x, y, w); auto|]. now apply (in_union _ _ _ Hin).
    - intros [([[u v] w] & [= -> ->] & H) Hp]. exists (x, y, w). split; auto. now apply (in_union _ _ _ H).
  Qed.
  Lemma union_no_overflow : no_overflow add z inf edges1 -> no_overflow add z inf edges2 -> no_overflow add z inf edges.
  Proof.
    intros H1 H2 x y d Hs. destruct (p x) eqn:Ep.
    - apply (H1 x y d). now apply (@part_shortest F add z arc (finite_edge_of inf edges1) p arc_same arc_1 x y d Ep).
    - apply (renamed_no_overflow sg_inverse wider_digraph shift_digraph sg_edges H2) with (x := x) (y := y). apply (@part_shortest F add z arc (finite_edge_of inf sh) np arc_same' arc_2 x y d); [|exact Hs]. unfold np. now rewrite Ep.
  Qed.
  Lemma union_betti {K : coeffT} time time1 time2 s t k1 k2 :
    shortest_path_filtration add z (finite_edge_of inf edges1) time1 -> shortest_path_filtration add z (finite_edge_of inf edges2) time2 -> shortest_path_filtration add z arc time ->
    no_overflow add z inf edges1 -> no_overflow add z inf edges2 ->
    path_betti_1 (K:=K) time1 n1 z (map fst edges1) s t k1 -> path_betti_1 (K:=K) time2 n2 z (map fst edges2) s t k2 -> path_betti_1 (K:=K) time n z (map fst edges) s t (k1 + k2).
  Proof.
    intros S1 S2 S O1 O2 B1 B2.
    pose proof (filtration_digraph Hadd Hw1 O1 S1) as [_ G1]. pose proof (filtration_digraph Hadd Hw2 O2 S2) as [_ G2].
    assert (B1' : path_betti_1 (K:=K) time1 n z (map fst edges1) s t k1).
    { apply betti_1_more with (n := n1); auto; [unfold n; lia|intros x y f H; apply G1 in H; tauto|exact (run_ground Hw1)]. }
    assert (B2' : path_betti_1 (K:=K) time2 n z (map fst edges2) s t k2).
    { apply betti_1_more with (n := n2); auto; [unfold n; lia|intros x y f H; apply G2 in H; tauto|exact (run_ground Hw2)]. }
    assert (Hf : exists time2', shortest_path_filtration add z (finite_edge_of inf sh) time2').
    { exists (fun x y => time2 (ta x) (ta y)). pose proof sg_inverse as (I1 & I2 & I3). destruct S2 as (T1 & T2 & T3).
      assert (Hr : forall x y d, walk add z (finite_edge_of inf edges2) (ta x) (ta y) d <-> walk add z (finite_edge_of inf sh) x y d) by (intros x y d; rewrite <- (I2 x), <- (I2 y) at 2; apply (renamed_walk_iff add inf sg_inverse wider_digraph shift_digraph sg_edges)).
      split; [auto|]. split.
      - intros x y d H. apply T2 in H. destruct H as [A B]. split; [now apply Hr|]. intros d' Hd. apply B. now apply Hr.
      - intros x y Hne H d Hd. apply (T3 _ _ (fun E => Hne (eq_trans (eq_sym (I2 x)) (eq_trans (f_equal sg E) (I2 y)))) H d). now apply Hr. }
    destruct Hf as (time2' & S2').
    assert (B2'' : path_betti_1 (K:=K) time2' n z (map fst sh) s t k2).
    { eapply betti_1_relabel; [exact sg_inverse|exact (renamed_time sg_inverse wider_digraph shift_digraph sg_edges S2 S2')| |exact B2'].
      intros x y. rewrite !in_map_iff. split.
      - intros ([[u v] w] & [= -> ->] & Hin). exists (sg x, sg y, w). split; auto. now apply (renamed_in sg_inverse wider_digraph shift_digraph sg_edges).
      - intros ([[u v] w] & [= -> ->] & Hin). exists (x, y, w). split; auto. now apply (renamed_in sg_inverse wider_digraph shift_digraph sg_edges). }
    apply (@betti_1_union K F n z time time1 time2' (map fst edges) (map fst edges1) (map fst sh) p); auto.
    - exact (@time_same F add z arc p arc_same time S).
    - exact pairs_same.
    - exact (@part_time F add z arc _ p arc_same arc_1 time time1 S S1).
    - exact pairs_1.
    - exact (@part_time F add z arc _ np arc_same' arc_2 time time2' S S2').
    - exact pairs_2.
  Qed.
  Lemma union_representatives R1 R2 : component_representatives n1 (map fst edges1) R1 -> component_representatives n2 (map fst edges2) R2 ->
    component_representatives n (map fst edges) (R1 ++ map (fun v => n1 + v) R2).
  Proof.
    intros (A1 & A2 & A3 & A4) (B1 & B2 & B3 & B4).
    assert (Hnp : forall x y, In (x, y) (map fst edges) -> np x = np y) by (intros x y H; unfold np; now rewrite (pairs_same _ _ H)).
    assert (Hback : forall x y, weakly_connected (map fst sh) x y -> weakly_connected (map fst edges2) (ta x) (ta y)).
    { intros x y. apply weakly_map. intros a b H. apply in_map_iff in H. destruct H as ([[u v] w] & [= -> ->] & Hin). pose proof sg_inverse as (I1 & I2 & I3). apply in_map_iff. exists (ta a, ta b, w). split; auto.
      apply (renamed_in sg_inverse wider_digraph shift_digraph sg_edges). now rewrite !I2. }
    assert (Hta : forall v, v < n2 -> ta (n1 + v) = v) by (intros v Hv; unfold ta, n; destruct (Nat.ltb_spec (n1 + v) n1); [lia|]; destruct (Nat.ltb_spec (n1 + v) (n1 + n2)); lia).
    split; [|split; [|split]].
    - apply nodup_app_intro; auto; [apply FinFun.Injective_map_NoDup; auto; intros a b H; lia|]. intros x H1 H2. apply in_map_iff in H2. destruct H2 as (v & <- & _). apply A2 in H1. lia.
    - intros r H. unfold n. apply in_app_iff in H. destruct H as [H|H]; [apply A2 in H; lia|]. apply in_map_iff in H. destruct H as (v & <- & H). apply B2 in H. lia.
    - intros v Hv. destruct (Nat.lt_ge_cases v n1) as [Hlt|Hge].
      + destruct (A3 v Hlt) as (r & Hr & Hc). exists r. split; [apply in_app_iff; auto|]. refine (@weakly_map (map fst edges1) (map fst edges) (fun x => x) _ v r Hc). intros x y H. now apply pairs_1.
      + destruct (B3 (v - n1)) as (r & Hr & Hc); [unfold n in Hv; lia|]. exists (n1 + r). split; [apply in_app_iff; right; apply in_map_iff; eauto|].
        replace v with (n1 + (v - n1)) by lia. refine (@weakly_map (map fst edges2) (map fst edges) (fun x => n1 + x) _ (v - n1) r Hc). intros x y H. apply in_map_iff in H. destruct H as ([[a b] w] & [= -> ->] & H).
        apply in_map_iff. exists (n1 + x, n1 + y, w). split; auto. unfold edges. apply in_app_iff. right. apply in_shift. eauto.
    - assert (Hr1 : forall r, In r R1 -> p r = true) by (intros r H; apply A2 in H; unfold p; now apply Nat.ltb_lt).
      assert (Hr2 : forall r, In r (map (fun v => n1 + v) R2) -> np r = true) by (intros r H; apply in_map_iff in H; destruct H as (v & <- & _); unfold np, p; destruct (Nat.ltb_spec (n1 + v) n1); [lia|auto]).
      intros r r' H H' Hc. apply in_app_iff in H, H'. destruct (@weakly_part _ _ p pairs_same pairs_1 r r' Hc) as [P1 P2]. destruct (@weakly_part _ _ np Hnp pairs_2 r r' Hc) as [P3 P4].
      destruct H as [H|H], H' as [H'|H'].
      + apply A4; auto.
      + exfalso. apply Hr1 in H. apply Hr2 in H'. unfold np in H'. rewrite <- P1, H in H'. discriminate.
      + exfalso. apply Hr1 in H'. apply Hr2 in H. unfold np in H. rewrite P1, H' in H. discriminate.
      + pose proof (P4 (Hr2 _ H)) as Hc2. apply Hback in Hc2. apply in_map_iff in H, H'. destruct H as (v & <- & Hv), H' as (v' & <- & Hv'). rewrite !Hta in Hc2 by auto. f_equal. apply B4; auto.
  Qed.
End Union.

Lemma bars_alive_app {F : ordT} (s t : F) es es' ps ps' : bars_alive s t (es ++ es') (ps ++ ps') = bars_alive s t es ps + bars_alive s t es' ps'.
Proof. unfold bars_alive. rewrite !filter_app, !app_length. lia. Qed.
Lemma all_z {F : Type} (z : F) (l : list F) : (forall b, In b l -> b = z) -> l = repeat z (length l).
Proof. induction l as [|a l IH]; intros H; [reflexivity|]. simpl. rewrite <- IH by (intros b Hb; apply H; now right). f_equal. apply H. now left. Qed.

(** ** C104: the diagram of a disjoint union is the union of the diagrams *)
Theorem C104_disjoint_union :
  forall (HI HI1 HI2 : heaps) (F : ordT) (add : F -> F -> F) (z inf : F) (n1 n2 : nat) (edges1 edges2 : list (nat * nat * F)) (sp sp1 sp2 : list (nat * nat * F) -> nat -> nat -> option F),
  (N.of_nat (n1 + n2) < 65536)%N -> weighted_digraph n1 z edges1 -> weighted_digraph n2 z edges2 ->
  nonneg_add add z -> no_overflow add z inf edges1 -> no_overflow add z inf edges2 ->
  shortest_path_library add z n1 sp1 -> shortest_path_library add z n2 sp2 -> shortest_path_library add z (n1 + n2) sp ->
  exists N : nat, forall fuel fuel1 fuel2, N < fuel -> N < fuel1 -> N < fuel2 ->
  exists ess0 ess1 prs1 ess0_1 ess1_1 prs1_1 ess0_2 ess1_2 prs1_2,
    grpph_py HI1 fuel1 z inf sp1 n1 edges1 = Ok ([ess0_1; ess1_1], [[]; prs1_1]) /\
    grpph_py HI2 fuel2 z inf sp2 n2 edges2 = Ok ([ess0_2; ess1_2], [[]; prs1_2]) /\
    grpph_py HI fuel z inf sp (n1 + n2) (edges1 ++ shift_edges n1 edges2) = Ok ([ess0; ess1], [[]; prs1]) /\
    Permutation ess0 (ess0_1 ++ ess0_2) /\ Permutation ess1 (ess1_1 ++ ess1_2) /\ Permutation prs1 (prs1_1 ++ prs1_2).
Proof.
  intros HI HI1 HI2 F add z inf n1 n2 edges1 edges2 sp sp1 sp2 Hn Hw1 Hw2 Hadd O1 O2 L1 L2 L.
  assert (Hn1 : (N.of_nat n1 < 65536)%N) by lia. assert (Hn2 : (N.of_nat n2 < 65536)%N) by lia.
  pose proof (union_digraph Hw1 Hw2) as Hw. pose proof (union_no_overflow Hw1 Hw2 O1 O2) as O.
  destruct (filtration_exists inf Hw1 L1) as (time1 & S1). destruct (filtration_exists inf Hw2 L2) as (time2 & S2). destruct (filtration_exists inf Hw L) as (time & S).
  destruct (weighted_run HI1 Hn1 Hw1 Hadd O1 L1 S1) as (N1 & R1). destruct (weighted_run HI2 Hn2 Hw2 Hadd O2 L2 S2) as (N2 & R2). destruct (weighted_run HI Hn Hw Hadd O L S) as (N & R).
  destruct (C58_births_and_deaths HI1 Hn1 Hw1 Hadd O1 L1) as (M1 & Q1). destruct (C58_births_and_deaths HI2 Hn2 Hw2 Hadd O2 L2) as (M2 & Q2). destruct (C58_births_and_deaths HI Hn Hw Hadd O L) as (M & Q).
  exists (N1 + N2 + N + M1 + M2 + M). intros fuel fuel1 fuel2 H H1 H2.
  destruct (R fuel ltac:(lia)) as (e0 & e1 & p1 & reps & E & _ & B & D & A & _). destruct (R1 fuel1 ltac:(lia)) as (e01 & e11 & p11 & reps1 & E1 & _ & B1 & D1 & A1 & _). destruct (R2 fuel2 ltac:(lia)) as (e02 & e12 & p12 & reps2 & E2 & _ & B2 & D2 & A2 & _).
  destruct (Q fuel ltac:(lia)) as (? & ? & ? & E' & _ & _ & C). rewrite E in E'. injection E' as <- <- <-.
  destruct (Q1 fuel1 ltac:(lia)) as (? & ? & ? & E1' & _ & _ & C1). rewrite E1 in E1'. injection E1' as <- <- <-.
  destruct (Q2 fuel2 ltac:(lia)) as (? & ? & ? & E2' & _ & _ & C2). rewrite E2 in E2'. injection E2' as <- <- <-.
  exists e0, e1, p1, e01, e11, p11, e02, e12, p12. split; auto. split; auto. split; auto. split.
  - destruct (representatives_exist _ (run_ground Hw1)) as (r1 & Hr1). destruct (representatives_exist _ (run_ground Hw2)) as (r2 & Hr2).
    pose proof (union_representatives Hw1 Hw2 Hr1 Hr2) as Hr. apply C in Hr. apply C1 in Hr1. apply C2 in Hr2. rewrite app_length, map_length in Hr.
    rewrite (@all_z _ z e0), (@all_z _ z e01), (@all_z _ z e02), <- repeat_app, Hr, Hr1, Hr2; auto; intros b Hb; [apply B2|apply B1|apply B]; apply in_app_iff; now left.
  - apply bars_determined.
    + intros b d Hb. apply D in Hb. destruct Hb as (-> & Hb & _). exact Hb.
    + intros b d Hb. apply in_app_iff in Hb. destruct Hb as [Hb|Hb]; [apply D1 in Hb|apply D2 in Hb]; destruct Hb as (-> & Hb & _); exact Hb.
    + intros s t Hst. rewrite bars_alive_app. symmetry. apply (A s t Hst).
      refine (union_betti Hadd Hw1 Hw2 S1 S2 S O1 O2 _ _); [now apply (A1 s t Hst)|now apply (A2 s t Hst)].
Qed.
Print Assumptions C104_disjoint_union.

(** an isolated vertex adds one essential class in dimension 0 and changes nothing else *)
Corollary C104_isolated_vertices :
  forall (HI HI1 : heaps) (F : ordT) (add : F -> F -> F) (z inf : F) (n m : nat) (edges : list (nat * nat * F)) (sp sp1 : list (nat * nat * F) -> nat -> nat -> option F),
  (N.of_nat (n + m) < 65536)%N -> weighted_digraph n z edges -> nonneg_add add z -> no_overflow add z inf edges ->
  shortest_path_library add z n sp1 -> shortest_path_library add z (n + m) sp ->
  exists N : nat, forall fuel fuel1, N < fuel -> N < fuel1 ->
  exists ess0 ess1 prs1 ess1' prs1',
    grpph_py HI1 fuel1 z inf sp1 n edges = Ok ([ess0; ess1], [[]; prs1]) /\
    grpph_py HI fuel z inf sp (n + m) edges = Ok ([repeat z m ++ ess0; ess1'], [[]; prs1']) /\
    Permutation ess1' ess1 /\ Permutation prs1' prs1.
Proof.
  intros HI HI1 F add z inf n m edges sp sp1 Hn Hw Hadd O L1 L.
  assert (Hn1 : (N.of_nat n < 65536)%N) by lia.
  assert (Hw' : weighted_digraph (n + m) z edges) by (intros u v w H; apply Hw in H; destruct H as (A & B & C); repeat split; auto; lia).
  destruct (filtration_exists inf Hw L1) as (time & S). pose proof S as S'.
  destruct (weighted_run HI1 Hn1 Hw Hadd O L1 S) as (N1 & R1). destruct (weighted_run HI Hn Hw' Hadd O L S') as (N & R).
  destruct (C58_births_and_deaths HI1 Hn1 Hw Hadd O L1) as (M1 & Q1). destruct (C58_births_and_deaths HI Hn Hw' Hadd O L) as (M & Q).
  exists (N1 + N + M1 + M). intros fuel fuel1 H H1.
  destruct (R fuel ltac:(lia)) as (e0 & e1 & p1 & reps & E & _ & B & D & A & _). destruct (R1 fuel1 ltac:(lia)) as (e01 & e11 & p11 & reps1 & E1 & _ & B1 & D1 & A1 & _).
  destruct (Q fuel ltac:(lia)) as (? & ? & ? & E' & _ & _ & C). rewrite E in E'. injection E' as <- <- <-.
  destruct (Q1 fuel1 ltac:(lia)) as (? & ? & ? & E1' & _ & _ & C1). rewrite E1 in E1'. injection E1' as <- <- <-.
  assert (He : e0 = repeat z m ++ e01).
  { destruct (representatives_exist _ (run_ground Hw)) as (r1 & Hr1).
    assert (Hw2 : weighted_digraph m z (@nil (nat * nat * F))) by (intros u v w []).
    destruct (representatives_exist _ (run_ground Hw2)) as (r2 & Hr2).
    pose proof (union_representatives Hw Hw2 Hr1 Hr2) as Hr. unfold shift_edges in Hr. simpl in Hr. rewrite app_nil_r in Hr. apply C in Hr. apply C1 in Hr1. rewrite app_length, map_length in Hr.
    assert (Hm : length r2 = m).
    { destruct Hr2 as (X1 & X2 & X3 & X4). apply Nat.le_antisymm.
      - rewrite <- (seq_length m 0). apply NoDup_incl_length; auto. intros x Hx. apply in_seq. apply X2 in Hx. lia.
      - rewrite <- (seq_length m 0) at 1. apply NoDup_incl_length; [apply seq_NoDup|]. intros x Hx. apply in_seq in Hx. destruct (X3 x ltac:(lia)) as (r & Hr' & Hc). assert (x = r) as ->; auto. clear -Hc. induction Hc; auto; [destruct H|congruence]. }
    rewrite (@all_z _ z e0), (@all_z _ z e01), <- repeat_app; [f_equal; lia| |]; intros b Hb; [apply B1|apply B]; apply in_app_iff; now left. }
  exists e01, e11, p11, e1, p1. split; auto. rewrite <- He. split; auto. apply bars_determined.
  - intros b d Hb. apply D in Hb. destruct Hb as (-> & Hb & _). exact Hb.
  - intros b d Hb. apply D1 in Hb. destruct Hb as (-> & Hb & _). exact Hb.
  - intros s t Hst. symmetry. apply (A s t Hst). pose proof (filtration_digraph Hadd Hw O S) as [_ G1].
    apply betti_1_more with (n := n); auto; [lia|intros x y f Hf; apply G1 in Hf; tauto|exact (run_ground Hw)|]. now apply (A1 s t Hst).
Qed.
Print Assumptions C104_isolated_vertices.

(** a directed triangle beside a two-vertex circuit with a loop *)
Example C104_ex :
  let edges1 := [(0, 1, 1); (1, 2, 2); (2, 0, 3)] : list (nat * nat * nat_ord) in
  let edges2 := [(0, 1, 1); (1, 0, 4); (1, 1, 2)] : list (nat * nat * nat_ord) in
  let sp := fun n e => bellman (F:=nat_ord) Nat.add 0 e n in
  weighted_digraph (F:=nat_ord) 3 0 edges1 /\ weighted_digraph (F:=nat_ord) 2 0 edges2 /\
  shift_edges 3 edges2 = [(3, 4, 1); (4, 3, 4); (4, 4, 2)] /\
  grpph_py (F:=nat_ord) list_heaps 60 0 1000 (sp 3) 3 edges1 = Ok ([[0]; []], [[]; [(0, 3)]]) /\
  grpph_py (F:=nat_ord) list_heaps 60 0 1000 (sp 2) 2 edges2 = Ok ([[0]; [0]], [[]; [(0, 4)]]) /\
  grpph_py (F:=nat_ord) list_heaps 60 0 1000 (sp 5) 5 (edges1 ++ shift_edges 3 edges2) = Ok ([[0; 0]; [0]], [[]; [(0, 3); (0, 4)]]) /\
  grpph_py (F:=nat_ord) list_heaps 60 0 1000 (sp 5) 5 edges1 = Ok ([[0; 0; 0]; []], [[]; [(0, 3)]]).
Proof.
  cbv zeta. split; [intros u v w H; simpl in H; repeat (destruct H as [[= <- <- <-]|H]; [repeat split; auto; try lia; apply ole_nat; lia|]); destruct H|].
  split; [intros u v w H; simpl in H; repeat (destruct H as [[= <- <- <-]|H]; [repeat split; auto; try lia; apply ole_nat; lia|]); destruct H|].
  repeat split; vm_compute; reflexivity.
Qed.
