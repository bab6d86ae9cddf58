(** Property theorem C110: reversing every edge of the digraph does not change the bars of grpph. *)
From Coq Require Import Permutation ZArith Reals Lra Lia.
From Flocq Require Import Core.
From Verif Require Import Base Fields FieldsFacts Spec LinAlg Columns ColumnsFacts Matrices Grpph SpecGrpph SpecPath SpecWeighted Weighted WeightedRun ShortestPaths PropWeighted PropGrpphExamples BarsUnique SpecBottleneck Matching Examples PropStability Float64 DoubleWalks PropDouble StdHeap Dijkstra PropDijkstra Relabel Reversal.
Set Implicit Arguments.

(** every edge [u -> v] becomes [v -> u], with the same weight *)
Definition reversed {W : Type} (edges : list (nat * nat * W)) : list (nat * nat * W) := map (fun e => match e with (u, v, w) => (v, u, w) end) edges.
Lemma in_reversed {W : Type} (edges : list (nat * nat * W)) u v w : In (u, v, w) edges <-> In (v, u, w) (reversed edges).
Proof.
  unfold reversed. rewrite in_map_iff. split.
  - intros H. exists (u, v, w). auto.
  - intros ([[a b] c] & [= -> -> ->] & H). exact H.
Qed.
Lemma in_reversed_pairs {W : Type} (edges : list (nat * nat * W)) x y : In (x, y) (map fst edges) <-> In (y, x) (map fst (reversed edges)).
Proof.
  rewrite !in_map_iff. split; intros ([[a b] c] & [= -> ->] & H).
  - exists (y, x, c). split; auto. now apply (proj1 (in_reversed edges _ _ _)).
  - exists (x, y, c). split; auto. now apply (proj2 (in_reversed edges _ _ _)).
Qed.
Lemma reversed_digraph {F : ordT} n (z : F) edges : weighted_digraph n z edges -> weighted_digraph n z (reversed edges).
Proof. intros H u v w Hin. apply (proj2 (in_reversed edges _ _ _)) in Hin. destruct (H _ _ _ Hin) as (A & B & C). auto. Qed.
Lemma reversed_finite {F : ordT} (inf : F) edges u v w : finite_edge_of inf edges u v w <-> finite_edge_of inf (reversed edges) v u w.
Proof. unfold finite_edge_of. now rewrite in_reversed. Qed.

(** ** C110: in exact arithmetic (any commutative and associative addition) *)
Theorem C110_reversal :
  forall (HI HI' : heaps) (F : ordT) (add : F -> F -> F) (z inf : F) (n : nat) (edges : list (nat * nat * F)) (sp sp' : list (nat * nat * F) -> nat -> nat -> option F),
  (forall a b, add a b = add b a) -> (forall a b c, add a (add b c) = add (add a b) c) ->
  (N.of_nat n < 65536)%N -> weighted_digraph n z edges -> nonneg_add add z -> no_overflow add z inf edges ->
  shortest_path_library add z n sp -> shortest_path_library add z n sp' ->
  exists M : nat, forall fuel fuel', M < fuel -> M < fuel' ->
  exists ess0 ess1 prs0 prs1 ess0' ess1' prs0' prs1',
    grpph_py HI fuel z inf sp n edges = Ok ([ess0; ess1], [prs0; prs1]) /\
    grpph_py HI' fuel' z inf sp' n (reversed edges) = Ok ([ess0'; ess1'], [prs0'; prs1']) /\
    Permutation ess0 ess0' /\ Permutation ess1 ess1' /\ Permutation prs0 prs0' /\ Permutation prs1 prs1'.
Proof.
  intros HI HI' F add z inf n edges sp sp' Hc Ha Hn Hw Hadd Hov Hlib Hlib'.
  assert (Hz : forall w, add z w = w) by apply Hadd.
  assert (Hov' : no_overflow add z inf (reversed edges)).
  { intros x y d Hd. apply (Hov y x d). exact (proj2 (@shortest_rev F add z _ _ Hc Ha Hz (reversed_finite inf edges) y x d) Hd). }
  destruct (C57_weighted_digraph HI Hn Hw Hadd Hov Hlib) as (time & Hspf & M1 & H1).
  destruct (C57_weighted_digraph HI' Hn (reversed_digraph Hw) Hadd Hov' Hlib') as (time' & Hspf' & M2 & H2).
  exists (M1 + M2). intros fuel fuel' Hf Hf'. destruct (H1 fuel ltac:(lia)) as (ess0 & ess1 & prs0 & prs1 & E1 & V1 & B1). destruct (H2 fuel' ltac:(lia)) as (ess0' & ess1' & prs0' & prs1' & E2 & V2 & B2).
  exists ess0, ess1, prs0, prs1, ess0', ess1', prs0', prs1'. split; auto. split; auto.
  pose proof (@time_rev_eq F add z _ _ Hc Ha Hz (reversed_finite inf edges) _ _ Hspf Hspf') as Ht.
  assert (P0 : Permutation ess0 ess0' /\ Permutation prs0 prs0').
  { apply bars_determined; [intros; apply V1, in_app_iff; auto|intros; apply V2, in_app_iff; auto|].
    intros s t Hst. apply (proj1 (B2 s t Hst _)). eapply betti_0_rev; [exact Ht|apply in_reversed_pairs|]. now apply B1. }
  assert (P1 : Permutation ess1 ess1' /\ Permutation prs1 prs1').
  { apply bars_determined; [intros; apply V1, in_app_iff; auto|intros; apply V2, in_app_iff; auto|].
    intros s t Hst. apply (proj2 (B2 s t Hst _)). eapply betti_1_rev; [exact Ht|apply in_reversed_pairs|]. now apply B1. }
  tauto.
Qed.
Print Assumptions C110_reversal.

(** ** on doubles *)
Lemma reversed_weights n edges : double_weights n edges -> double_weights n (reversed edges).
Proof. intros H u v w Hin. apply (proj2 (in_reversed edges _ _ _)) in Hin. destruct (H _ _ _ Hin) as (A & B & C). auto. Qed.
Lemma reversed_exact n edges b0 b1 exact : exact_diagram n edges b0 b1 exact -> exact_diagram n (reversed edges) b0 b1 exact.
Proof.
  intros (time & Hspf & Hv & Hb). exists (fun x y => time y x). split; [|split; auto].
  - eapply (@time_rev R_ord Rplus 0%R (real_arc edges)); [apply Rplus_comm|intros; symmetry; apply Rplus_assoc|apply Rplus_0_l| |exact Hspf].
    intros u v w. unfold real_arc. split; intros (w' & H1 & H2); exists w'; split; auto; [now apply (proj1 (in_reversed edges _ _ _))|now apply (proj2 (in_reversed edges _ _ _))].
  - intros s t Hst b. destruct (Hb s t Hst b) as [H0 H1].
    assert (HE : forall x y, In (x, y) (map fst edges) <-> In (y, x) (map fst (reversed edges))) by apply in_reversed_pairs.
    assert (HE' : forall x y, In (x, y) (map fst (reversed edges)) <-> In (y, x) (map fst edges)) by (intros; now rewrite HE).
    split.
    + rewrite <- H0. split; intros H; [eapply (@betti_0_rev Z2_coeff R_ord n (fun x y => time y x) time); [reflexivity|exact HE'|exact H]|eapply (@betti_0_rev Z2_coeff R_ord n time); [reflexivity|exact HE|exact H]].
    + rewrite <- H1. split; intros H; [eapply (@betti_1_rev Z2_coeff R_ord n (fun x y => time y x) time); [reflexivity|exact HE'|exact H]|eapply (@betti_1_rev Z2_coeff R_ord n time); [reflexivity|exact HE|exact H]].
Qed.

Lemma exact_unique n edges b0 b1 exact b0' b1' exact' : exact_diagram n edges b0 b1 exact -> exact_diagram n edges b0' b1' exact' -> b0 = b0' /\ b1 = b1' /\ Permutation exact exact'.
Proof.
  intros (time & Hspf & Hv & Hb) (time' & Hspf' & Hv' & Hb').
  assert (Ht : forall x y, time x y = time' x y).
  { destruct Hspf as (A1 & A2 & A3), Hspf' as (B1 & B2 & B3). intros x y. destruct (Nat.eq_dec x y) as [->|Hne]; [now rewrite A1, B1|].
    destruct (time x y) as [d|] eqn:E, (time' x y) as [d'|] eqn:E'; auto.
    - f_equal. exact (shortest_unique (A2 _ _ _ E) (B2 _ _ _ E')).
    - exfalso. apply A2 in E. exact (B3 _ _ Hne E' d (proj1 E)).
    - exfalso. apply B2 in E'. exact (A3 _ _ Hne E d' (proj1 E')). }
  assert (Hi : inverse_pair n (fun x => x) (fun x => x)) by (split; [|split]; intros; tauto).
  assert (P0 : Permutation (repeat 0%R b0) (repeat 0%R b0') /\ Permutation (@nil (R * R)) []).
  { apply (@bars_determined R_ord); [intros b d []|intros b d []|]. intros s t Hst. apply (proj1 (Hb' s t Hst _)).
    apply (@betti_0_relabel Z2_coeff R_ord n (fun x => x) (fun x => x) time time' 0%R (map fst edges) (map fst edges) Hi Ht); [reflexivity|]. now apply (proj1 (Hb s t Hst _)). }
  assert (P1 : Permutation (repeat 0%R b1) (repeat 0%R b1') /\ Permutation exact exact').
  { apply (@bars_determined R_ord); [intros b d H; apply Hv in H; destruct H as [-> H]; now apply olt_R|intros b d H; apply Hv' in H; destruct H as [-> H]; now apply olt_R|]. intros s t Hst. apply (proj2 (Hb' s t Hst _)).
    apply (@betti_1_relabel Z2_coeff R_ord n (fun x => x) (fun x => x) time time' 0%R (map fst edges) (map fst edges) Hi Ht); [reflexivity|]. now apply (proj2 (Hb s t Hst _)). }
  destruct P0 as [P0 _], P1 as [P1 P2]. apply Permutation_length in P0, P1. rewrite !repeat_length in P0, P1. auto.
Qed.

(** matched bars of two runs on doubles: both born at 0, deaths equal up to the factor [err] *)
Definition close_bars (err : R) (p p' : notnan_ord * notnan_ord) : Prop :=
  fst p = zero64 /\ fst p' = zero64 /\ (val (snd p) <= val (snd p') * err)%R /\ (val (snd p') <= val (snd p) * err)%R.

(** The two runs give the same essential classes, and finite bars that match up to the rounding errors. *)
Theorem C110_reversal_doubles :
  forall (HI HI' : heaps) (n : nat) (edges : list (nat * nat * notnan_ord)) adj adj',
  (N.of_nat n < 65536)%N -> double_weights n edges -> (forall edges, adjacency edges (adj edges)) -> (forall edges, adjacency edges (adj' edges)) ->
  exists N : nat, forall fuel fuel', N < fuel -> N < fuel' -> exists ess prs prs',
    grpph_py (F:=notnan_ord) HI fuel zero64 inf64 (dijkstra_sp (F:=notnan_ord) add64 zero64 [] scored_push scored_pop adj) n edges = Ok (ess, [[]; prs]) /\
    grpph_py (F:=notnan_ord) HI' fuel' zero64 inf64 (dijkstra_sp (F:=notnan_ord) add64 zero64 [] scored_push scored_pop adj') n (reversed edges) = Ok (ess, [[]; prs']) /\
    matching (close_bars ((1 + bpow radix2 (-53)) ^ (2 * (n - 2)))) (fun _ => False) (fun _ => False) prs prs'.
Proof.
  intros HI HI' n edges adj adj' Hn Hdw Hadj Hadj'.
  destruct (C99_grpph_dijkstra HI adj Hn Hdw Hadj) as (b0 & b1 & exact & HX & N1 & H1).
  destruct (C99_grpph_dijkstra HI' adj' Hn (reversed_weights Hdw) Hadj') as (b0' & b1' & exact' & HX' & N2 & H2).
  destruct (exact_unique (reversed_exact HX) HX') as (<- & <- & HP).
  exists (N1 + N2). intros fuel fuel' Hf Hf'. destruct (H1 fuel ltac:(lia)) as (prs & E1 & M1). destruct (H2 fuel' ltac:(lia)) as (prs' & E2 & M2).
  eexists _, prs, prs'. split; [exact E1|]. split; [exact E2|].
  pose proof (bpow_gt_0 radix2 (-53)) as Hu. set (u := bpow radix2 (-53)) in *.
  assert (Hp : (0 < (1 + u) ^ (n - 2))%R) by (apply pow_lt; lra).
  replace ((1 + u) ^ (2 * (n - 2)))%R with ((1 + u) ^ (n - 2) * (1 + u) ^ (n - 2))%R by (rewrite <- pow_add; f_equal; lia).
  pose proof (matching_perm (Permutation_refl prs') (Permutation_sym HP) M2) as M2'.
  eapply matching_weaken; [| | |exact (matching_comp M1 (matching_sym M2'))]; cbv beta.
  - intros [b d] [b' d'] ([c e] & (A1 & A2 & A3 & A4) & (B1 & B2 & B3 & B4)). simpl in *. split; auto. split; auto. simpl.
    split; nra.
  - intros p [[]|(q & _ & [])].
  - intros p [[]|(q & _ & [])].
Qed.
Print Assumptions C110_reversal_doubles.

(** On multiples of a power of two with small sums (for example integers) nothing changes at all. *)
Theorem C110_reversal_exact_doubles :
  forall (HI HI' : heaps) (n : nat) (edges : list (nat * nat * notnan_ord)) sp sp' (e m : Z),
  (N.of_nat n < 65536)%N -> shortest_path_library (F:=notnan_ord) add64 zero64 n sp -> shortest_path_library (F:=notnan_ord) add64 zero64 n sp' ->
  (-1074 <= e <= 971)%Z -> (0 <= m)%Z -> ((Z.of_nat n - 1) * m <= 2 ^ 53)%Z ->
  (forall u v w, In (u, v, w) edges -> u < n /\ v < n /\ (w = inf64 \/ (val w <= bpow radix2 1007)%R /\ exists k, (0 <= k <= m)%Z /\ val w = (IZR k * bpow radix2 e)%R)) ->
  exists N : nat, forall fuel fuel', N < fuel -> N < fuel' -> exists ess prs prs',
    grpph_py (F:=notnan_ord) HI fuel zero64 inf64 sp n edges = Ok (ess, [[]; prs]) /\
    grpph_py (F:=notnan_ord) HI' fuel' zero64 inf64 sp' n (reversed edges) = Ok (ess, [[]; prs']) /\
    Permutation prs prs'.
Proof.
  intros HI HI' n edges sp sp' e m Hn Hlib Hlib' He Hm Hnm Hed.
  assert (Hed' : forall u v w, In (u, v, w) (reversed edges) -> u < n /\ v < n /\ (w = inf64 \/ (val w <= bpow radix2 1007)%R /\ exists k, (0 <= k <= m)%Z /\ val w = (IZR k * bpow radix2 e)%R)).
  { intros u v w Hin. apply (proj2 (in_reversed edges _ _ _)) in Hin. destruct (Hed _ _ _ Hin) as (A & B & C). auto. }
  destruct (@C94_exact_doubles HI n edges sp e m Hn Hlib He Hm Hnm Hed) as (b0 & b1 & exact & HX & N1 & H1).
  destruct (@C94_exact_doubles HI' n (reversed edges) sp' e m Hn Hlib' He Hm Hnm Hed') as (b0' & b1' & exact' & HX' & N2 & H2).
  destruct (exact_unique (reversed_exact HX) HX') as (<- & <- & HP).
  exists (N1 + N2). intros fuel fuel' Hf Hf'. destruct (H1 fuel ltac:(lia)) as (prs & E1 & M1). destruct (H2 fuel' ltac:(lia)) as (prs' & E2 & M2).
  eexists _, prs, prs'. split; [exact E1|]. split; [exact E2|].
  assert (HQ : Permutation (map (fun p => (val (fst p), val (snd p))) prs) (map (fun p => (val (fst p), val (snd p))) prs')) by (now rewrite M1, M2).
  apply Permutation_map_inv in HQ. destruct HQ as (l & El & Hl). rewrite Hl. clear -El.
  revert l El. induction prs as [|p prs IH]; intros [|q l] E; try discriminate; auto. cbn [map] in E. injection E as E1 E2 E3. rewrite (IH l E3).
  replace q with p; auto. destruct p, q. cbn [fst snd] in *. f_equal; now apply val_inj.
Qed.
Print Assumptions C110_reversal_exact_doubles.

(** A digraph that is not isomorphic to its reversal: a source, a cycle of three and a chord. *)
Example C110_ex :
  let edges := [(0, 1, 3); (1, 2, 1); (2, 3, 2); (3, 1, 4); (0, 3, 7)] : list (nat * nat * nat_ord) in
  let sp := fun e => bellman (F:=nat_ord) Nat.add 0 e 4 in
  weighted_digraph (F:=nat_ord) 4 0 edges /\
  grpph_py (F:=nat_ord) list_heaps 40 0 1000 sp 4 edges = Ok ([[0]; []], [[]; [(0, 6); (0, 4)]]) /\
  grpph_py (F:=nat_ord) list_heaps 40 0 1000 sp 4 (reversed edges) = Ok ([[0]; []], [[]; [(0, 6); (0, 4)]]).
Proof.
  cbv zeta. split; [intros u v w H; simpl in H; repeat (destruct H as [[= <- <- <-]|H]; [repeat split; auto; try lia; apply ole_nat; lia|]); destruct H|].
  split; vm_compute; reflexivity.
Qed.
