(** Property theorem C61: what the representatives returned by [grpph_with_involution] are. *)
From Verif Require Import Base Fields FieldsFacts Spec LinAlg Columns ColumnsFacts Matrices SpecMat MatricesFacts Reduction Graded StandardResults Duality GrpphCells Grpph SpecGrpph SpecPath SpecPH GrpphFacts GrpphColumns GrpphComplex GrpphReduce GrpphInvolution GrpphList PropGrpph GrpphRun PropGrpphRun Persistence RipsPersistence BettiUnique PathBasis RepBasis PathBetti GrpphReps PropPathHomology.
From Coq Require Import Ring Field Ring_theory Permutation Lia.
Set Implicit Arguments.

Lemma Forall2_map_l {A B C} (Q : B -> C -> Prop) (f : A -> B) l1 l2 : Forall2 (fun a c => Q (f a) c) l1 l2 -> Forall2 Q (map f l1) l2.
Proof. induction 1; cbn [map]; constructor; auto. Qed.
Lemma Forall2_weak {A B} (Q Q' : A -> B -> Prop) l1 l2 : (forall a b, In a l1 -> Q a b -> Q' a b) -> Forall2 Q l1 l2 -> Forall2 Q' l1 l2.
Proof. intros H HF. induction HF as [|a b l1 l2 Hq HF IH]; constructor; [apply H; [now left|auto]|]. apply IH. intros x y Hx. apply H. now right. Qed.

Lemma generator_time {F : ordT} (time : nat -> nat -> option F) X f : generator time X f -> exists x y, time x y = Some f.
Proof.
  assert (H : forall a b c f, path_time time a b c = Some f -> exists x y, time x y = Some f).
  { intros a b c f' Ef. apply path_Some in Ef. destruct Ef as (g1 & g2 & E1 & E2 & ->). destruct (omax_case g1 g2) as [->| ->]; eauto. }
  intros Hf. destruct Hf; eauto.
Qed.

(** everything that a run returns *)
Lemma run_all :
  forall (HI : heaps) (F : ordT) (time : nat -> nat -> option F) (n : nat) (z inf : F) (edges : list (nat * nat * F)) (dijkstra : nat -> nat -> option F),
  (N.of_nat n < 65536)%N -> (forall s t w, In (s, t, w) edges -> s < n /\ t < n) ->
  filtered_digraph time n z inf -> (forall s t, s < n -> t < n -> s <> t -> dijkstra s t = time s t) ->
  forall (phi : cell -> F) (l : list cell) (fuel : nat), cell_listing time n z (map fst edges) phi l -> length l < fuel ->
  exists ess0 ess1 prs0 prs1 reps,
    grpph HI fuel z inf n edges dijkstra = Ok ([ess0; ess1], [prs0; prs1]) /\
    grpph_with_involution HI fuel z inf n edges dijkstra = Ok ([ess0; ess1], [prs0; prs1], reps) /\
    (forall birth death, In (birth, death) (prs0 ++ prs1) -> olt birth death) /\
    (forall birth death, In (birth, death) prs1 -> exists x y, time x y = Some death) /\
    (forall s t, ole s t -> forall b,
      (path_betti_0 (K:=Z2_coeff) time n z (map fst edges) s t b <-> b = bars_alive s t ess0 prs0) /\
      (path_betti_1 (K:=Z2_coeff) time n z (map fst edges) s t b <-> b = bars_alive s t ess1 prs1)) /\
    exists bars cs, Permutation bars prs1 /\
      Forall2 (bar_representative (K:=Z2_coeff) time n z (map fst edges)) bars reps /\
      Forall2 (cycle_1 (K:=Z2_coeff) time n z (map fst edges)) ess1 cs /\
      forall s t, ole s t -> image_basis_1 time n z (map fst edges) s t (chains_alive s t (combine ess1 cs) (combine bars reps)).
Proof.
  intros HI F time n z inf edges dijkstra Hn He HG Hd phi l fuel HL Hfuel.
  assert (HE : forall s t, In (s, t) (map fst edges) -> s < n /\ t < n).
  { intros s t H. apply in_map_iff in H. destruct H as ([[i j] w] & [= <- <-] & H). eapply He; eauto. }
  destruct (@grpph_path_homology HI F time n z inf edges dijkstra Hn He HG Hd phi l fuel HL Hfuel) as (ess0 & ess1 & prs0 & prs1 & Erun & Hlt & Hbetti).
  destruct (@C51_grpph_with_involution HI F time n z inf edges dijkstra Hn He HG Hd phi l fuel HL Hfuel) as (ess & prs & reps & Einv & Erun' & (P & Es & NP & NE & HP & HEs & Eess & Eprs) & P1 & NP1 & HP1 & HF).
  rewrite Erun in Erun'. injection Erun' as <- <-. cbn [map] in Eprs. injection Eess as E0 E1. injection Eprs as E2 E3.
  exists ess0, ess1, prs0, prs1, reps. split; auto. split; auto. split; auto.
  assert (Hperm : Permutation (filter (fun p : cell * cell => (cell_dimension (fst p) =? 1) && negb (oeqb (phi (fst p)) (phi (snd p)))) P) P1).
  { apply NoDup_Permutation; [now apply NoDup_filter|auto|]. intros [i j]. rewrite filter_In, HP, HP1. cbn [fst snd].
    destruct (Nat.eqb_spec (cell_dimension i) 1), (oeqb_spec (phi i) (phi j)); cbn [andb negb]; intuition (try congruence; try discriminate). }
  split; [|split; auto].
  - intros birth death Hin. subst prs1. apply in_map_iff in Hin. destruct Hin as ([i j] & [= <- <-] & Hin). cbn [fst snd]. apply filter_In in Hin. destruct Hin as [Hin Hf].
    cbn [fst snd] in Hf. apply andb_prop in Hf. destruct Hf as [Hf _]. apply Nat.eqb_eq in Hf. apply HP in Hin. destruct Hin as [Hj Hp].
    pose proof (@inv_complex Z2_coeff F time n z inf _ HG HE phi l HL) as Hcx. pose proof (@bd_graded Z2_coeff l) as Hgr.
    assert (Hg := @pair_grade Z2_coeff F cell_ord phi l (cell_boundary (K:=Z2_coeff)) (per_fin (phi : cell_ord -> F) Hcx) (fun c : cell_ord => cdim c) (-1)%Z Hgr i j Hp).
    cbv beta in Hg. rewrite Hf in Hg. destruct HL as (_ & Hin & Hphi & _). apply Hin in Hj. destruct Hj as (f & Hf'). pose proof (Hphi _ _ Hf') as Ef.
    destruct j as [v|x y|X]; try (exfalso; cbn [cell_dimension] in Hg; lia). rewrite Ef. exact (generator_time Hf').
  - exists (map (fun p : cell * cell => (phi (fst p), phi (snd p))) P1).
    destruct (@reps_basis Z2_coeff F time n z inf _ HG HE phi l HL P P1 Es reps NP NE NP1 HP HEs HP1 HF) as (cs & H1 & H2).
    exists cs. rewrite E1. split; [rewrite E3; apply Permutation_map, Permutation_sym; exact Hperm|]. split; [|split; auto].
    apply Forall2_map_l. eapply Forall2_weak; [|exact HF]. intros [i j] rep Hin Hr. cbn [fst snd] in *. apply HP1 in Hin. apply (@rep_bar Z2_coeff F time n z inf _ HG HE phi l HL); [tauto|auto].
Qed.

(** ** C61: representatives *)
Theorem C61_representatives :
  forall (HI : heaps) (F : ordT) (time : nat -> nat -> option F) (n : nat) (z inf : F) (edges : list (nat * nat * F)) (dijkstra : nat -> nat -> option F),
  (N.of_nat n < 65536)%N -> (forall s t w, In (s, t, w) edges -> s < n /\ t < n) ->
  filtered_digraph time n z inf -> (forall s t, s < n -> t < n -> s <> t -> dijkstra s t = time s t) ->
  exists N : nat, forall fuel, N < fuel ->
  exists ess0 ess1 prs0 prs1 reps,
    grpph_with_involution HI fuel z inf n edges dijkstra = Ok ([ess0; ess1], [prs0; prs1], reps) /\
    grpph HI fuel z inf n edges dijkstra = Ok ([ess0; ess1], [prs0; prs1]) /\
    exists bars cs, Permutation bars prs1 /\
      Forall2 (bar_representative (K:=Z2_coeff) time n z (map fst edges)) bars reps /\
      Forall2 (cycle_1 (K:=Z2_coeff) time n z (map fst edges)) ess1 cs /\
      forall s t, ole s t -> image_basis_1 time n z (map fst edges) s t (chains_alive s t (combine ess1 cs) (combine bars reps)).
Proof.
  intros HI F time n z inf edges dijkstra Hn He HG Hd.
  destruct (C48_cells_listed HG (@run_E F n edges Hn He) (edge_set_nodup edges)) as (phi & l & HL). exists (length l). intros fuel Hfuel.
  destruct (@run_all HI F time n z inf edges dijkstra Hn He HG Hd phi l fuel) as (ess0 & ess1 & prs0 & prs1 & reps & H1 & H2 & _ & _ & _ & H3); auto.
  - eapply listing_same; [|exact HL]. intros s t. apply (@run_same F n edges Hn He).
  - exists ess0, ess1, prs0, prs1, reps. auto.
Qed.
Print Assumptions C61_representatives.

(** The diamond of C51_ex: one bar of dimension 1, represented by the four edges of the square. *)
Example C61_ex : exists bars cs, Permutation bars [((0 : nat_ord), (3 : nat_ord))] /\
  Forall2 (bar_representative (K:=Z2_coeff) ex_time 4 (0 : nat_ord) (map fst ex_weighted)) bars [[(2, 3); (1, 3); (0, 2); (0, 1)]] /\
  Forall2 (cycle_1 (K:=Z2_coeff) ex_time 4 (0 : nat_ord) (map fst ex_weighted)) [] cs.
Proof.
  destruct C50_ex_hypotheses as (H1 & H2 & H3 & H4).
  destruct (@run_all list_heaps nat_ord ex_time 4 0 9 ex_weighted ex_time ltac:(reflexivity) H1 H2 ltac:(auto) _ _ 16 H3) as (ess0 & ess1 & prs0 & prs1 & reps & E1 & E2 & _ & _ & _ & bars & cs & H5 & H6 & H7 & _).
  { rewrite H4. lia. }
  pose proof C51_ex as E3. rewrite E3 in E2. injection E2 as <- <- <- <- <-. exists bars, cs. auto.
Qed.
