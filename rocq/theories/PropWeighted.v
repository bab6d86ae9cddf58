(** Property theorems C57 - C60 and C62: the Python functions on weighted digraphs. *)
From Verif Require Import Base Fields FieldsFacts Spec LinAlg Columns Matrices Reduction GrpphCells Grpph SpecGrpph SpecPath SpecWeighted GrpphFacts PropGrpph GrpphRun PropGrpphRun Persistence BettiUnique PathBetti Weighted WeightedCone PropPathHomology PropReps WeightedRun.
From Coq Require Import Permutation Lia.
Set Implicit Arguments.

(** everything that a run on a weighted digraph returns *)
Lemma weighted_run :
  forall (HI : heaps) (F : ordT) (add : F -> F -> F) (z inf : F) (n : nat) (edges : list (nat * nat * F)) (sp : list (nat * nat * F) -> nat -> nat -> option F),
  (N.of_nat n < 65536)%N -> weighted_digraph n z edges -> nonneg_add add z -> no_overflow add z inf edges -> shortest_path_library add z n sp ->
  forall time, shortest_path_filtration add z (finite_edge_of inf edges) time ->
  exists N : nat, forall fuel, N < fuel ->
  exists ess0 ess1 prs1 reps,
    grpph_py HI fuel z inf sp n edges = Ok ([ess0; ess1], [[]; prs1]) /\
    grpph_with_involution_py HI fuel z inf sp n edges = Ok ([ess0; ess1], [[]; prs1], reps) /\
    (forall b, In b (ess0 ++ ess1) -> b = z) /\
    (forall b d, In (b, d) prs1 -> b = z /\ olt z d /\ exists x y, time x y = Some d) /\
    (forall s t, ole s t -> forall b,
      (path_betti_0 (K:=Z2_coeff) time n z (map fst edges) s t b <-> b = bars_alive s t ess0 []) /\
      (path_betti_1 (K:=Z2_coeff) time n z (map fst edges) s t b <-> b = bars_alive s t ess1 prs1)) /\
    exists bars cs, Permutation bars prs1 /\
      Forall2 (bar_representative (K:=Z2_coeff) time n z (map fst edges)) bars reps /\
      Forall2 (cycle_1 (K:=Z2_coeff) time n z (map fst edges)) ess1 cs /\
      forall s t, ole s t -> image_basis_1 time n z (map fst edges) s t (chains_alive s t (combine ess1 cs) (combine bars reps)).
Proof.
  intros HI F add z inf n edges sp Hn Hw Hadd Hov Hlib time Hspf.
  pose proof (run_ends Hw) as He. pose proof (run_ground Hw) as HE. pose proof (run_arc (inf:=inf) Hw) as Harc.
  pose proof (filtration_digraph Hadd Hw Hov Hspf) as HG. pose proof (filtration_dijkstra Hw Hlib Hspf) as Hd.
  destruct (C48_cells_listed HG (@run_E F n edges Hn He) (edge_set_nodup edges)) as (phi & l & HL). exists (length l). intros fuel Hfuel.
  destruct (@run_all HI F time n z inf edges (sp (finite_edges inf edges)) Hn He HG Hd phi l fuel) as (ess0 & ess1 & prs0 & prs1 & reps & H1 & H2 & Hlt & Hdeath & Hbetti & H3); auto.
  { eapply listing_same; [|exact HL]. intros s t. apply (@run_same F n edges Hn He). }
  assert (Hb0 : forall s t, ole s t -> path_betti_0 (K:=Z2_coeff) time n z (map fst edges) s t (bars_alive s t ess0 prs0)) by (intros s t Hst; now apply Hbetti).
  assert (Hb1 : forall s t, ole s t -> path_betti_1 (K:=Z2_coeff) time n z (map fst edges) s t (bars_alive s t ess1 prs1)) by (intros s t Hst; now apply Hbetti).
  assert (B0 : (forall b, In b ess0 -> b = z) /\ (forall b d, In (b, d) prs0 -> b = z)).
  { apply births_at; [intros b d Hin; apply Hlt; apply in_app_iff; auto| |].
    - intros t Ht. symmetry. apply (Hbetti t t (ole_refl t)). now apply betti0_before.
    - intros t Ht. rewrite <- (proj1 (proj1 (Hbetti t t (ole_refl t) (bars_alive z t ess0 prs0))) (betti0_surj Ht (Hb0 _ _ Ht))). reflexivity. }
  assert (B1 : (forall b, In b ess1 -> b = z) /\ (forall b d, In (b, d) prs1 -> b = z)).
  { apply births_at; [intros b d Hin; apply Hlt; apply in_app_iff; auto| |].
    - intros t Ht. symmetry. apply (Hbetti t t (ole_refl t)). now apply (betti1_before _ HG).
    - intros t Ht. rewrite <- (proj1 (proj2 (Hbetti t t (ole_refl t) (bars_alive z t ess1 prs1))) (betti1_surj HG HE Hadd Harc Hspf Ht (Hb1 _ _ Ht))). reflexivity. }
  assert (E0 : prs0 = []).
  { destruct (upper_bound z (map snd prs0)) as (t & Ht & Hmax).
    pose proof (proj1 (proj1 (Hbetti z t Ht _)) (betti0_stable HG HE Hadd Harc Hspf Ht (Hb0 _ _ (ole_refl z)))) as E.
    rewrite (@alive_start F z) in E; [|intros b d Hin; apply Hlt; apply in_app_iff; auto|apply B0|apply B0].
    rewrite (@alive_end F z) in E; [|apply B0|intros b d Hin; apply Hmax; apply in_map_iff; exists (b, d); auto].
    destruct prs0; auto. cbn [length] in E. lia. }
  subst prs0. exists ess0, ess1, prs1, reps. split; auto. split; auto. split; [|split; [|split; auto]].
  - intros b Hb. apply in_app_iff in Hb. destruct Hb; [now apply B0|now apply B1].
  - intros b d Hin. pose proof (proj2 B1 _ _ Hin) as ->. split; auto. split; [apply Hlt; apply in_app_iff; auto|]. eapply Hdeath; eauto.
Qed.

(** ** C57: [grpph] computes the grounded persistent path homology of the shortest-path filtration *)
Theorem C57_weighted_digraph :
  forall (HI : heaps) (F : ordT) (add : F -> F -> F) (z inf : F) (n : nat) (edges : list (nat * nat * F)) (sp : list (nat * nat * F) -> nat -> nat -> option F),
  (N.of_nat n < 65536)%N -> weighted_digraph n z edges -> nonneg_add add z -> no_overflow add z inf edges -> shortest_path_library add z n sp ->
  exists time, shortest_path_filtration add z (finite_edge_of inf edges) time /\
  exists N : nat, forall fuel, N < fuel ->
  exists ess0 ess1 prs0 prs1,
    grpph_py HI fuel z inf sp n edges = Ok ([ess0; ess1], [prs0; prs1]) /\
    (forall birth death, In (birth, death) (prs0 ++ prs1) -> olt birth death) /\
    (forall s t, ole s t -> forall b,
      (path_betti_0 (K:=Z2_coeff) time n z (map fst edges) s t b <-> b = bars_alive s t ess0 prs0) /\
      (path_betti_1 (K:=Z2_coeff) time n z (map fst edges) s t b <-> b = bars_alive s t ess1 prs1)).
Proof.
  intros HI F add z inf n edges sp Hn Hw Hadd Hov Hlib. destruct (filtration_exists inf Hw Hlib) as (time & Hspf). exists time. split; auto.
  destruct (weighted_run HI Hn Hw Hadd Hov Hlib Hspf) as (N & HN). exists N. intros fuel Hfuel. destruct (HN fuel Hfuel) as (ess0 & ess1 & prs1 & reps & H1 & _ & _ & H2 & H3 & _).
  exists ess0, ess1, [], prs1. split; auto. split; auto. intros b d Hin. cbn [app] in Hin. destruct (H2 _ _ Hin) as (-> & H & _). exact H.
Qed.
Print Assumptions C57_weighted_digraph.

(** ** C58: where the bars begin and end *)
Theorem C58_births_and_deaths :
  forall (HI : heaps) (F : ordT) (add : F -> F -> F) (z inf : F) (n : nat) (edges : list (nat * nat * F)) (sp : list (nat * nat * F) -> nat -> nat -> option F),
  (N.of_nat n < 65536)%N -> weighted_digraph n z edges -> nonneg_add add z -> no_overflow add z inf edges -> shortest_path_library add z n sp ->
  exists N : nat, forall fuel, N < fuel ->
  exists ess0 ess1 prs1,
    grpph_py HI fuel z inf sp n edges = Ok ([ess0; ess1], [[]; prs1]) /\
    (forall birth, In birth (ess0 ++ ess1) -> birth = z) /\
    (forall birth death, In (birth, death) prs1 -> birth = z /\ olt z death /\
      exists x y, x <> y /\ shortest add z (finite_edge_of inf edges) x y death) /\
    (forall R, component_representatives n (map fst edges) R -> length ess0 = length R).
Proof.
  intros HI F add z inf n edges sp Hn Hw Hadd Hov Hlib. destruct (filtration_exists inf Hw Hlib) as (time & Hspf).
  destruct (weighted_run HI Hn Hw Hadd Hov Hlib Hspf) as (N & HN). exists N. intros fuel Hfuel. destruct (HN fuel Hfuel) as (ess0 & ess1 & prs1 & reps & H1 & _ & H2 & H3 & H4 & _).
  exists ess0, ess1, prs1. split; auto. split; auto. split.
  - intros b d Hin. destruct (H3 _ _ Hin) as (-> & Hd & x & y & Et). split; auto. split; auto. exists x, y. destruct Hspf as (S1 & S2 & S3). split; [intros ->; rewrite S1 in Et; discriminate|]. now apply S2.
  - intros R HR. pose proof (@betti0_components Z2_coeff F time n z (map fst edges) (run_ground Hw) add _ (run_arc (inf:=inf) Hw) Hspf R HR) as Hb.
    apply (H4 z z (ole_refl z)) in Hb. rewrite Hb. unfold bars_alive. cbn [filter length]. rewrite filter_full; [lia|]. intros b Hb'. rewrite (H2 b) by (apply in_app_iff; auto).
    destruct (oleb_spec z z) as [|Hf]; auto. exfalso. apply Hf, ole_refl.
Qed.
Print Assumptions C58_births_and_deaths.

Lemma positive_times {F : ordT} (add : F -> F -> F) (z inf : F) n (edges : list (nat * nat * F)) time : nonneg_add add z -> weighted_digraph n z edges -> positive_weights z edges ->
  shortest_path_filtration add z (finite_edge_of inf edges) time -> forall x y f, time x y = Some f -> olt z f.
Proof.
  intros Hadd Hw Hpos (S1 & S2 & S3) x y f Et. pose proof (S2 _ _ _ Et) as [Hwk _]. destruct Hwk as [|u y d w Hwk Ha]; [rewrite S1 in Et; discriminate|].
  pose proof (walk_nonneg (map fst edges) Hadd (run_arc (inf:=inf) Hw) Hwk) as Hd. destruct Ha as [Ha _]. pose proof (Hpos _ _ _ Ha). apply Hw in Ha. destruct Hadd as [_ Hadd].
  destruct (Hadd d w Hd ltac:(tauto)) as [_ Hle]. eapply olt_le_trans; eauto.
Qed.

(** ** C59: the number of bars in dimension 1 is the circuit rank *)
Theorem C59_circuit_rank :
  forall (HI : heaps) (F : ordT) (add : F -> F -> F) (z inf : F) (n : nat) (edges : list (nat * nat * F)) (sp : list (nat * nat * F) -> nat -> nat -> option F),
  (N.of_nat n < 65536)%N -> weighted_digraph n z edges -> positive_weights z edges ->
  nonneg_add add z -> no_overflow add z inf edges -> shortest_path_library add z n sp ->
  exists N : nat, forall fuel, N < fuel ->
  exists ess0 ess1 prs1,
    grpph_py HI fuel z inf sp n edges = Ok ([ess0; ess1], [[]; prs1]) /\
    forall E R, NoDup E -> (forall e, In e E <-> In e (map fst edges)) -> component_representatives n (map fst edges) R ->
      length ess1 + length prs1 + n = length E + length R.
Proof.
  intros HI F add z inf n edges sp Hn Hw Hpos Hadd Hov Hlib. destruct (filtration_exists inf Hw Hlib) as (time & Hspf).
  destruct (C58_births_and_deaths HI Hn Hw Hadd Hov Hlib) as (N1 & HN1).
  destruct (weighted_run HI Hn Hw Hadd Hov Hlib Hspf) as (N & HN). exists (N + N1). intros fuel Hfuel. destruct (HN fuel ltac:(lia)) as (ess0 & ess1 & prs1 & reps & H1 & _ & H2 & H3 & H4 & _).
  exists ess0, ess1, prs1. split; auto. intros E R HE HEi HR.
  assert (Hsame : forall R', component_representatives n (map fst edges) R' -> length ess0 = length R').
  { destruct (HN1 fuel ltac:(lia)) as (ess0' & ess1' & prs1' & H1' & _ & _ & H5). rewrite H1 in H1'. injection H1' as <- <- <-. exact H5. }
  assert (HEb : forall s t, In (s, t) E -> s < n /\ t < n) by (intros s t Hi; apply HEi in Hi; exact (run_ground Hw _ _ Hi)).
  destruct (@betti1_start Z2_coeff n F time z E HE HEb (positive_times Hadd Hw Hpos Hspf)) as (R' & k & HR' & Hk & Hb).
  assert (HR2 : component_representatives n (map fst edges) R').
  { assert (Hwc : forall x y, weakly_connected E x y <-> weakly_connected (map fst edges) x y).
    { intros x y. unfold weakly_connected. split; induction 1; try (apply Relation_Operators.rst_step; now apply HEi); try apply Relation_Operators.rst_refl; try (now apply Relation_Operators.rst_sym); eapply Relation_Operators.rst_trans; eauto. }
    destruct HR' as (A & B & C & D). repeat split; auto; [|intros r r' I1 I2 I3; apply D; auto; now apply Hwc]. intros v Hv. destruct (C v Hv) as (r & I1 & I2). exists r. split; auto. now apply Hwc. }
  apply (@betti1_same Z2_coeff F time n z E (map fst edges) z z k HEi), (H4 z z (ole_refl z)) in Hb. rewrite (@alive_start F z) in Hb.
  - pose proof (Hsame _ HR). pose proof (Hsame _ HR2). lia.
  - intros b d Hin. destruct (H3 _ _ Hin) as (-> & Hd & _). auto.
  - intros b Hin. apply H2. apply in_app_iff. auto.
  - intros b d Hin. apply (H3 _ _ Hin).
Qed.
Print Assumptions C59_circuit_rank.

Lemma rooted_components {F : ordT} (add : F -> F -> F) (z inf : F) n (edges : list (nat * nat * F)) root : weighted_digraph n z edges -> root < n ->
  (forall v, v < n -> exists d, walk add z (finite_edge_of inf edges) root v d) -> component_representatives n (map fst edges) [root].
Proof.
  intros Hw Hr Hroot. repeat split.
  - constructor; [intros []|constructor].
  - intros r [<-|[]]; auto.
  - intros v Hv. exists root. split; [now left|]. destruct (Hroot v Hv) as (d & Hd). apply Relation_Operators.rst_sym. clear Hv. induction Hd as [|u y d w Hd IH Ha]; [apply Relation_Operators.rst_refl|].
    eapply Relation_Operators.rst_trans; [exact IH|]. apply Relation_Operators.rst_step. apply (run_arc (inf:=inf) Hw Ha).
  - intros r r' [<-|[]] [<-|[]] _. reflexivity.
Qed.

(** ** C60: which cycles never die when some vertex reaches every other *)
Theorem C60_essential_cycles :
  forall (HI : heaps) (F : ordT) (add : F -> F -> F) (z inf : F) (n : nat) (edges : list (nat * nat * F)) (sp : list (nat * nat * F) -> nat -> nat -> option F) (root : nat),
  (N.of_nat n < 65536)%N -> weighted_digraph n z edges -> nonneg_add add z -> no_overflow add z inf edges -> shortest_path_library add z n sp ->
  root < n -> (forall v, v < n -> exists d, walk add z (finite_edge_of inf edges) root v d) ->
  exists N : nat, forall fuel, N < fuel ->
  exists ess1 prs1,
    grpph_py HI fuel z inf sp n edges = Ok ([[z]; ess1], [[]; prs1]) /\
    forall L, NoDup L -> (forall x y, In (x, y) L <-> In (x, y) (map fst edges) /\ (x = y \/ forall d, ~ walk add z (finite_edge_of inf edges) x y d)) ->
      ess1 = repeat z (length L).
Proof.
  intros HI F add z inf n edges sp root Hn Hw Hadd Hov Hlib Hr Hroot. destruct (filtration_exists inf Hw Hlib) as (time & Hspf).
  pose proof (filtration_digraph Hadd Hw Hov Hspf) as HG.
  destruct (C58_births_and_deaths HI Hn Hw Hadd Hov Hlib) as (N1 & HN1).
  destruct (weighted_run HI Hn Hw Hadd Hov Hlib Hspf) as (N & HN). exists (N + N1). intros fuel Hfuel. destruct (HN fuel ltac:(lia)) as (ess0 & ess1 & prs1 & reps & H1 & _ & H2 & H3 & H4 & _).
  pose proof (rooted_components Hw Hr Hroot) as Hcomp.
  assert (E0 : ess0 = [z]).
  { destruct (HN1 fuel ltac:(lia)) as (ess0' & ess1' & prs1' & H1' & H2' & _ & H5). rewrite H1 in H1'. injection H1' as <- <- <-. specialize (H5 _ Hcomp). cbn [length] in H5.
    destruct ess0 as [|b [|b' ess0]]; try discriminate. rewrite (H2 b); [reflexivity|now left]. }
  subst ess0. exists ess1, prs1. split; auto. intros L HNL HL.
  assert (Hnone : forall x y, time x y = None <-> (x = y \/ forall d, ~ walk add z (finite_edge_of inf edges) x y d)).
  { intros x y. destruct Hspf as (S1 & S2 & S3). split.
    - intros Et. destruct (Nat.eq_dec x y); [now left|right]. now apply S3.
    - intros [->|Hno]; auto. destruct (time x y) as [d|] eqn:Et; auto. exfalso. apply (Hno d). apply (S2 _ _ _ Et). }
  destruct (upper_bound z (flat_map (fun x => flat_map (fun y => match time x y with Some f => [f] | None => [] end) (seq 0 n)) (seq 0 n))) as (T & HzT & HT).
  assert (HT' : forall x y f, time x y = Some f -> ole f T).
  { intros x y f Et. apply HT. destruct HG as [_ HG2]. pose proof (HG2 _ _ _ Et) as (Hx & Hy & _). apply in_flat_map. exists x. split; [apply in_seq; lia|]. apply in_flat_map. exists y. split; [apply in_seq; lia|]. rewrite Et. now left. }
  assert (Hb : path_betti_1 (K:=Z2_coeff) time n z (map fst edges) T T (length L)).
  { apply (@betti1_cone Z2_coeff F time n z inf (map fst edges) HG (run_ground Hw) T root HzT Hr) with (L := L : list edge_ord); auto.
    - intros v Hv Hne. destruct (Hroot v Hv) as (d & Hd). destruct (walk_time Hspf Hd ltac:(congruence)) as (f & Ef & _). exists f. split; auto. eapply HT'; eauto.
    - intros x y _ Ht. destruct (time x y) as [f|] eqn:Et; [|congruence]. exists f. split; auto. eapply HT'; eauto.
    - intros x y. rewrite (HL x y). split; intros [A B]; (split; [exact A|]); apply Hnone; auto. }
  assert (Hal : bars_alive T T ess1 prs1 = bars_alive z T ess1 prs1).
  { apply (H4 T T (ole_refl T)) in Hb. pose proof (proj2 (proj2 (H4 z T HzT _)) eq_refl) as Hz.
    pose proof (@betti1_surj Z2_coeff F time n z inf (map fst edges) HG (run_ground Hw) add _ Hadd (run_arc (inf:=inf) Hw) Hspf T _ HzT Hz) as Hs. apply (H4 T T (ole_refl T)) in Hs. auto. }
  apply (H4 T T (ole_refl T)) in Hb. rewrite Hal, (@alive_end F z) in Hb.
  - rewrite Hb. clear - H2. assert (H : forall b, In b ess1 -> b = z) by (intros b Hb; apply H2; apply in_app_iff; auto). clear H2.
    induction ess1 as [|b l IH]; auto. cbn [length repeat]. rewrite (H b) by now left. f_equal. apply IH. intros c Hc. apply H. now right.
  - intros b Hin. apply H2. apply in_app_iff. auto.
  - intros b d Hin. destruct (H3 _ _ Hin) as (_ & _ & x & y & Et). eapply HT'; eauto.
Qed.
Print Assumptions C60_essential_cycles.

(** ** C62: with positive weights the representatives run along the given edges only *)
Theorem C62_representatives_in_graph :
  forall (HI : heaps) (F : ordT) (add : F -> F -> F) (z inf : F) (n : nat) (edges : list (nat * nat * F)) (sp : list (nat * nat * F) -> nat -> nat -> option F),
  (N.of_nat n < 65536)%N -> weighted_digraph n z edges -> positive_weights z edges ->
  nonneg_add add z -> no_overflow add z inf edges -> shortest_path_library add z n sp ->
  exists N : nat, forall fuel, N < fuel ->
  exists ess prs0 prs1 reps,
    grpph_with_involution_py HI fuel z inf sp n edges = Ok (ess, [prs0; prs1], reps) /\
    length reps = length prs1 /\
    forall rep, In rep reps -> NoDup rep /\ rep <> [] /\ (forall x y, In (x, y) rep -> In (x, y) (map fst edges)) /\
      (forall v, edge_bdry (K:=Z2_coeff) n (edges_sum rep) v = f0).
Proof.
  intros HI F add z inf n edges sp Hn Hw Hpos Hadd Hov Hlib. destruct (filtration_exists inf Hw Hlib) as (time & Hspf).
  destruct (weighted_run HI Hn Hw Hadd Hov Hlib Hspf) as (N & HN). exists N. intros fuel Hfuel. destruct (HN fuel Hfuel) as (ess0 & ess1 & prs1 & reps & _ & H1 & _ & H2 & _ & bars & cs & H3 & H4 & _).
  exists [ess0; ess1], [], prs1, reps. split; auto. split; [rewrite <- (Permutation_length H3); clear - H4; induction H4; cbn [length]; congruence|].
  intros rep Hrep. assert (Hbar : exists b d, In (b, d) prs1 /\ bar_representative (K:=Z2_coeff) time n z (map fst edges) (b, d) rep).
  { clear H1. assert (Hi : exists p, In p bars /\ bar_representative (K:=Z2_coeff) time n z (map fst edges) p rep).
    { clear H3. induction H4 as [|p r ps rs Hp HF IH]; [destruct Hrep|]. destruct Hrep as [<-|Hrep]; [exists p; split; [now left|auto]|]. destruct (IH Hrep) as (q & I1 & I2). exists q. split; [now right|auto]. }
    destruct Hi as ([b d] & I1 & I2). exists b, d. split; auto. eapply Permutation_in; eauto. }
  destruct Hbar as (b & d & Hin & A1 & [A2 A3] & A4 & A5). cbn [fst snd] in *. destruct (H2 _ _ Hin) as (-> & Hzd & _). split; auto. split; [|split; auto].
  - intros ->. apply (A5 z Hzd). eapply B1_ext; [|apply B1_zero]. intros x y. reflexivity.
  - intros x y Hxy. assert (Hne : edges_sum (K:=Z2_coeff) rep x y <> f0).
    { unfold edges_sum. rewrite (@vsum_single Z2_coeff (nat * nat) rep _ (x, y)); auto.
      - cbn [fst snd]. rewrite !Nat.eqb_refl. discriminate.
      - intros [a c] _ Hd'. cbn [fst snd]. destruct (Nat.eqb_spec a x), (Nat.eqb_spec c y); subst; try congruence; reflexivity. }
    apply A2 in Hne. destruct Hne as [[Hi _]|[_ (f & Ef & Hf)]]; auto. exfalso. pose proof (positive_times Hadd Hw Hpos Hspf _ _ Ef) as Hlt. apply (olt_not_le z f) in Hlt. contradiction.
Qed.
Print Assumptions C62_representatives_in_graph.
