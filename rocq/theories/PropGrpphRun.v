(** Property theorems C50-C51: the functions exported to Python by phlite_grpph. *)
From Verif Require Import Base Fields FieldsFacts Spec LinAlg Columns ColumnsFacts Matrices SpecMat MatricesFacts Reduction Graded StandardResults Duality Rips RipsBasis PropMatrices PropClearing RipsComplex GrpphCells Grpph SpecGrpph GrpphFacts GrpphColumns GrpphComplex GrpphReduce GrpphList GrpphRun Involution GrpphInvolution PropGrpph.
From Coq Require Import Ring_theory Sorted Permutation Lia.
Set Implicit Arguments.

(** ** C50: build, reverse and reduce; the barcode *)

(** Over every field, the reduction returns, and its pairs are those of the boundary matrix of the regular path
    complex with every pair exchanged and wrapped in [Reverse]; 2-cells are never reported as essential. *)
Theorem C50_reduce :
  forall (HI : heaps) (K : coeffT) (F : ordT) (time : nat -> nat -> option F) (n : nat) (z inf : F) (fil : dfil F) (E : list (nat * nat)),
  filtered_digraph time n z inf -> (forall s t, s < n -> t < n -> fil s t = Ok (time s t)) ->
  (forall s t, In (s, t) E -> s < n /\ t < n) -> NoDup E ->
  forall (phi : cell -> F) (l : list cell) (fuel : nat), cell_listing time n z E phi l -> length l < fuel ->
  exists d rc dg,
    grpph_reduce HI fuel z inf (K:=K) fil E n = Ok (d, (rc, dg)) /\
    NoDup (pairings dg) /\ NoDup (essential dg) /\
    (forall i j : cell, In ((Reverse j : rC), (Reverse i : rC)) (pairings dg) <->
       In j l /\ is_pair (phi : cell_ord -> F) (l : list cell_ord) (cell_boundary (K:=K) : cell_ord -> vec K cell_ord) i j) /\
    (forall c : cell, In (Reverse c : rC) (essential dg) <->
       cell_dimension c <= 1 /\ is_essential (phi : cell_ord -> F) (l : list cell_ord) (cell_boundary (K:=K) : cell_ord -> vec K cell_ord) c).
Proof.
  intros HI K F time n z inf fil E HG Hfil HE HEn phi l fuel HL Hfuel.
  destruct (@reduce_spec HI K F time n z inf fil E HG Hfil HE HEn phi l fuel HL Hfuel) as (d & rc & dg & H1 & _ & H). exists d, rc, dg. split; [exact H1|exact H].
Qed.
Print Assumptions C50_reduce.

(** The lists that [grpph] returns: one bar per essential class / per pair with distinct times, in the
    dimension of the birth cell, with the births of the cells as times.  [E] is the list of edges given to [grpph]. *)
Definition barcode {F : ordT} (phi : cell -> F) (l : list cell) (ess : list (list F)) (prs : list (list (F * F))) : Prop :=
  exists (P : list (cell * cell)) (Es : list cell),
    NoDup P /\ NoDup Es /\
    (forall i j, In (i, j) P <->
       In j l /\ is_pair (phi : cell_ord -> F) (l : list cell_ord) (cell_boundary (K:=Z2_coeff) : cell_ord -> vec Z2_coeff cell_ord) i j) /\
    (forall c, In c Es <-> cell_dimension c <= 1 /\
       is_essential (phi : cell_ord -> F) (l : list cell_ord) (cell_boundary (K:=Z2_coeff) : cell_ord -> vec Z2_coeff cell_ord) c) /\
    ess = [map phi (filter (fun c => cell_dimension c =? 0) Es); map phi (filter (fun c => cell_dimension c =? 1) Es)] /\
    prs = map (fun k => map (fun p : cell * cell => (phi (fst p), phi (snd p)))
                (filter (fun p : cell * cell => (cell_dimension (fst p) =? k) && negb (oeqb (phi (fst p)) (phi (snd p)))) P)) [0; 1].

Section Grpph.
  Variable HI : heaps.
  Context {F : ordT} (time : nat -> nat -> option F) (n : nat) (z inf : F) (edges : list (nat * nat * F)) (dijkstra : nat -> nat -> option F).
  Hypothesis Hn : (N.of_nat n < 65536)%N.
  Hypothesis He : forall s t w, In (s, t, w) edges -> s < n /\ t < n.
  Hypothesis HG : filtered_digraph time n z inf.
  Hypothesis Hd : forall s t, s < n -> t < n -> s <> t -> dijkstra s t = time s t.
  Let fil := vec_filtration (build_filtration n dijkstra).
  Let E := build_edge_set edges.
  Lemma run_fil s t : s < n -> t < n -> fil s t = Ok (time s t).
  Proof.
    intros Hs Ht. unfold fil. rewrite table_ok by auto. destruct (Nat.eqb_spec s t) as [->|Hne]; f_equal; auto. symmetry. apply HG.
  Qed.
  Lemma run_same s t : In (s, t) E <-> In (s, t) (map fst edges).
  Proof. apply (@edge_set_small F n); [lia|]. intros [[i j] w] Hp. cbn [fst snd]. eapply He; eauto. Qed.
  Lemma run_E s t : In (s, t) E -> s < n /\ t < n.
  Proof. intros H. apply run_same in H. apply in_map_iff in H. destruct H as ([[i j] w] & [= <- <-] & H). eapply He; eauto. Qed.
  Variables (phi : cell -> F) (l : list cell) (fuel : nat).
  Hypothesis HL : cell_listing time n z (map fst edges) phi l.
  Hypothesis Hfuel : length l < fuel.
  Lemma run_L : cell_listing time n z E phi l.
  Proof. eapply listing_same; [|exact HL]. intros s t. symmetry. apply run_same. Qed.

  Lemma run_reduce : exists d rc dg,
    grpph_reduce HI fuel z inf (K:=Z2_coeff) fil E (as_u16 n) = Ok (d, (rc, dg)) /\
    (forall c, In c l -> m_fil d c = Ok (phi c)) /\
    NoDup (pairings dg) /\ NoDup (essential dg) /\
    (forall i j : cell, In ((Reverse j : rC), (Reverse i : rC)) (pairings dg) <->
       In j l /\ is_pair (phi : cell_ord -> F) (l : list cell_ord) (cell_boundary (K:=Z2_coeff) : cell_ord -> vec Z2_coeff cell_ord) i j) /\
    (forall c : cell, In (Reverse c : rC) (essential dg) <->
       cell_dimension c <= 1 /\ is_essential (phi : cell_ord -> F) (l : list cell_ord) (cell_boundary (K:=Z2_coeff) : cell_ord -> vec Z2_coeff cell_ord) c).
  Proof.
    rewrite (as_u16_small n Hn).
    destruct (@reduce_spec HI Z2_coeff F time n z inf fil E HG run_fil run_E (edge_set_nodup edges) phi l fuel run_L Hfuel) as (d & rc & dg & H1 & H2 & H). exists d, rc, dg.
    split; [exact H1|]. split; [|exact H]. intros c Hc. rewrite H2. destruct run_L as (_ & Hin & Hphi & _).
    pose proof Hc as Hb. apply Hin in Hb. destruct Hb as (f & Hb). rewrite (Hphi _ _ Hb). exact (gfil_ok HG fil run_fil E run_E c _ Hb).
  Qed.
  Lemma run_pair_dims i j : In j l -> is_pair (phi : cell_ord -> F) (l : list cell_ord) (cell_boundary (K:=Z2_coeff) : cell_ord -> vec Z2_coeff cell_ord) i j ->
    In i l /\ cell_dimension j = cell_dimension i + 1.
  Proof.
    intros Hj Hp. destruct run_L as (Hl & Hin & Hphi & Hord).
    assert (Hr : forall c r : cell_ord, In c l -> cell_boundary (K:=Z2_coeff) c r <> f0 -> In r l).
    { intros c r. exact (@bd_rows Z2_coeff F time n z inf HG E run_E l Hin c r). }
    split; [eapply (@pair_rows_in Z2_coeff F cell_ord); [|exact Hp]; exact Hr|].
    assert (Hg := @pair_grade Z2_coeff F cell_ord phi l (cell_boundary (K:=Z2_coeff)) ltac:(intros x; eapply (@primal_fin Z2_coeff F cell_ord); exact Hr) (fun c : cell_ord => cdim c) (-1)%Z (@bd_graded Z2_coeff l) i j Hp).
    cbv beta in Hg. revert Hg. generalize (cell_dimension i) (cell_dimension j). intros; lia.
  Qed.

  Lemma run_bars d rc dg : grpph_reduce HI fuel z inf (K:=Z2_coeff) fil E (as_u16 n) = Ok (d, (rc, dg)) ->
    exists ess prs, translate_essential (m_fil d) (essential dg) = Ok ess /\ translate_pairings (m_fil d) (pairings dg) = Ok prs /\ barcode phi l ess prs.
  Proof.
    intros E1. destruct run_reduce as (d' & rc' & dg' & E1' & Hf & N1 & N2 & Hp & Hes). rewrite E1 in E1'. injection E1' as <- <- <-.
    assert (Hpd : forall p : rC * rC, In p (pairings dg) -> In (unrev (snd p) : cell) l /\ In (unrev (fst p) : cell) l /\ cell_dimension (unrev (snd p)) <= 1).
    { intros [[j] [i]] H. apply Hp in H. destruct H as [Hj H]. destruct (run_pair_dims Hj H) as [Hi Hd']. cbn [unrev fst snd]. split; auto. split; auto. assert (cell_dimension j <= 2) by (destruct j; simpl; lia). lia. }
    eexists. eexists. split; [|split].
    - apply (translate_essential_spec (m_fil d) phi). intros [c] Hc. cbn [unrev]. apply Hes in Hc. destruct Hc as [Hc1 Hc2]. split; auto. apply Hf. apply Hc2.
    - apply (translate_pairings_spec (m_fil d) phi). intros p H. destruct (Hpd p H) as (H1 & H2 & H3). split; [apply Hf; auto|]. split; [apply Hf; auto|auto].
    - exists (map (fun p : rC * rC => (unrev (snd p) : cell, unrev (fst p) : cell)) (pairings dg)), (map (@unrev cell_ord) (essential dg)).
      split; [|split; [|split; [|split; [|split]]]].
      + apply FinFun.Injective_map_NoDup; auto. intros [[j] [i]] [[j'] [i']]. cbn [fst snd unrev]. intros [= -> ->]. reflexivity.
      + apply FinFun.Injective_map_NoDup; auto. intros [c] [c']. cbn [unrev]. intros ->. reflexivity.
      + intros i j. rewrite <- Hp, in_map_iff. split.
        * intros ([[j'] [i']] & Eq & H). cbn [fst snd unrev] in Eq. injection Eq as -> ->. exact H.
        * intros H. exists ((Reverse j : rC), (Reverse i : rC)). split; auto.
      + intros c. rewrite <- Hes, in_map_iff. split.
        * intros ([c'] & Eq & H). cbn [unrev] in Eq. subst c'. exact H.
        * intros H. exists (Reverse c : rC). split; auto.
      + reflexivity.
      + reflexivity.
  Qed.
End Grpph.

Theorem C50_grpph :
  forall (HI : heaps) (F : ordT) (time : nat -> nat -> option F) (n : nat) (z inf : F) (edges : list (nat * nat * F)) (dijkstra : nat -> nat -> option F),
  (N.of_nat n < 65536)%N -> (forall s t w, In (s, t, w) edges -> s < n /\ t < n) ->
  filtered_digraph time n z inf -> (forall s t, s < n -> t < n -> s <> t -> dijkstra s t = time s t) ->
  forall (phi : cell -> F) (l : list cell) (fuel : nat), cell_listing time n z (map fst edges) phi l -> length l < fuel ->
  exists ess prs, grpph HI fuel z inf n edges dijkstra = Ok (ess, prs) /\ barcode phi l ess prs.
Proof.
  intros HI F time n z inf edges dijkstra Hn He HG Hd phi l fuel HL Hfuel.
  destruct (@run_reduce HI F time n z inf edges dijkstra Hn He HG Hd phi l fuel HL Hfuel) as (d & rc & dg & E1 & _).
  destruct (@run_bars HI F time n z inf edges dijkstra Hn He HG Hd phi l fuel HL Hfuel d rc dg E1) as (ess & prs & E2 & E3 & HB).
  exists ess, prs. split; auto. unfold grpph. rewrite E1. cbn [bind]. rewrite E2. cbn [bind]. rewrite E3. reflexivity.
Qed.
Print Assumptions C50_grpph.

(** [n_vertices as u16] silently truncates: 65536 isolated vertices give no bars at all. *)
Theorem C50_u16_truncation_refuted :
  forall (HI : heaps) (F : ordT) (z inf : F) (dijkstra : nat -> nat -> option F) (fuel : nat),
  grpph HI fuel z inf (N.to_nat 65536) [] dijkstra = Ok ([[]; []], [[]; []]).
Proof.
  intros HI F z inf dijkstra fuel. unfold grpph. assert (E : as_u16 (N.to_nat 65536) = 0).
  { unfold as_u16. rewrite N2Nat.id. reflexivity. }
  rewrite E. generalize (vec_filtration (build_filtration (N.to_nat 65536) dijkstra)). intros fil. reflexivity.
Qed.
Print Assumptions C50_u16_truncation_refuted.

(** A run satisfying the hypotheses of [C50_grpph]. *)
Definition ex_weighted : list (nat * nat * nat_ord) := [(0, 1, 1); (1, 3, 1); (0, 2, 2); (2, 3, 3)].
Example C50_ex_hypotheses :
  (forall s t w, In (s, t, w) ex_weighted -> s < 4 /\ t < 4) /\ filtered_digraph ex_time 4 0 9 /\
  cell_listing ex_time 4 0 (map fst ex_weighted) (births_phi ex_time 0 (map fst ex_weighted)) (listing ex_time 4 0 9 (map fst ex_weighted)) /\
  length (listing ex_time 4 0 9 (map fst ex_weighted)) = 15.
Proof.
  assert (He : forall s t w, In (s, t, w) ex_weighted -> s < 4 /\ t < 4).
  { intros s t w [[= <- <- <-]|[[= <- <- <-]|[[= <- <- <-]|[[= <- <- <-]|[]]]]]; lia. }
  split; auto. split; [exact ex_digraph|]. split; [|vm_compute; reflexivity]. apply listing_ok; [exact ex_digraph| |].
  - intros s t H. apply in_map_iff in H. destruct H as ([[i j] w] & [= <- <-] & H). eapply He; eauto.
  - repeat constructor; cbn; intuition congruence.
Qed.
Example C50_ex : grpph list_heaps 16 (0 : nat_ord) 9 4 ex_weighted ex_time =
  Ok ([[0]; []], [[]; [(0, 3)]]).
Proof. vm_compute. reflexivity. Qed.

(** Edges mentioning a vertex that does not exist make the functions panic (petgraph silently adds the vertex, the
    table of times has no row or column for it). *)
Example C50_unknown_vertex_panics :
  grpph list_heaps 16 (0 : nat_ord) 9 2 [(0, 1, 1); (1, 5, 1)] (fun s t => if (s =? 0) && (t =? 1) then Some 1 else None) = Panic.
Proof. vm_compute. reflexivity. Qed.

(** ** C51: representatives by involution *)

(** Reducing only the columns of the boundary matrix that kill something gives the same pairs. *)
Theorem C51_negative_columns_suffice :
  forall (K : coeffT) (F C R : ordT) (phi : R -> F) (B N : list C) (D : C -> vec K R),
  NoDup B -> NoDup N -> (forall c, In c N -> In c B) -> (forall x y, before N x y -> before B x y) ->
  (forall b, In b B -> ~ In b N -> is_positive B D b) ->
  forall i j, In j N -> (is_pair phi N D i j <-> is_pair phi B D i j).
Proof. intros K F C R phi B N D. exact (@pair_drop K F C R phi B N D). Qed.
Print Assumptions C51_negative_columns_suffice.

(** [grpph_with_involution] returns the bars of [grpph] and, for each bar of dimension 1 with distinct finite
    times, exactly one list of edges representing it. *)
Theorem C51_grpph_with_involution :
  forall (HI : heaps) (F : ordT) (time : nat -> nat -> option F) (n : nat) (z inf : F) (edges : list (nat * nat * F)) (dijkstra : nat -> nat -> option F),
  (N.of_nat n < 65536)%N -> (forall s t w, In (s, t, w) edges -> s < n /\ t < n) ->
  filtered_digraph time n z inf -> (forall s t, s < n -> t < n -> s <> t -> dijkstra s t = time s t) ->
  forall (phi : cell -> F) (l : list cell) (fuel : nat), cell_listing time n z (map fst edges) phi l -> length l < fuel ->
  exists ess prs reps,
    grpph_with_involution HI fuel z inf n edges dijkstra = Ok (ess, prs, reps) /\
    grpph HI fuel z inf n edges dijkstra = Ok (ess, prs) /\ barcode phi l ess prs /\
    exists P : list (cell * cell), NoDup P /\
      (forall i j, In (i, j) P <-> In j l /\
         is_pair (phi : cell_ord -> F) (l : list cell_ord) (cell_boundary (K:=Z2_coeff) : cell_ord -> vec Z2_coeff cell_ord) i j /\
         cell_dimension i = 1 /\ phi i <> phi j) /\
      Forall2 (fun (p : cell * cell) rep => represents (K:=Z2_coeff) phi l (fst p) (snd p) rep) P reps.
Proof.
  intros HI F time n z inf edges dijkstra Hn He HG Hd phi l fuel HL Hfuel.
  destruct (@run_reduce HI F time n z inf edges dijkstra Hn He HG Hd phi l fuel HL Hfuel) as (d & rc & dg & E1 & Hf & N1 & N2 & Hp & Hes).
  destruct (@run_bars HI F time n z inf edges dijkstra Hn He HG Hd phi l fuel HL Hfuel d rc dg E1) as (ess & prs & E2 & E3 & HB).
  pose proof (@run_fil F time n z inf dijkstra HG Hd) as Hfil. pose proof (@run_E F n edges Hn He) as HE.
  pose proof (@run_L F time n z edges Hn He phi l HL) as HL'.
  pose proof (@ibase_ok F time n z inf _ HG HE phi l HL' (pairings dg) Hp (m_fil d) Hf) as E4.
  destruct (@reps_ok HI F time n z inf _ _ HG Hfil HE phi l fuel HL' Hfuel (pairings dg) N1 Hp (m_fil d) Hf) as (reps & P & E5 & NP & HP & H2).
  exists ess, prs, reps. split; [|split; [|split; [exact HB|exists P; auto]]].
  - unfold grpph_with_involution. rewrite E1. cbn [bind]. rewrite E2. cbn [bind]. rewrite E4. cbn [bind]. rewrite E3. cbn [bind]. rewrite E5. reflexivity.
  - unfold grpph. rewrite E1. cbn [bind]. rewrite E2. cbn [bind]. rewrite E3. reflexivity.
Qed.
Print Assumptions C51_grpph_with_involution.
Example C51_ex : grpph_with_involution list_heaps 16 (0 : nat_ord) 9 4 ex_weighted ex_time =
  Ok ([[0]; []], [[]; [(0, 3)]], [[(2, 3); (1, 3); (0, 2); (0, 1)]]).
Proof. vm_compute. reflexivity. Qed.
