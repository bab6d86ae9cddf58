(** Property theorems C45-C49: the path-homology matrices of phlite_grpph. *)
From Verif Require Import Base Fields FieldsFacts Spec LinAlg Columns ColumnsFacts Matrices SpecMat MatricesFacts Reduction Graded StandardResults Duality Rips RipsBasis PropMatrices RipsComplex GrpphCells Grpph SpecGrpph GrpphFacts GrpphColumns GrpphComplex GrpphReduce GrpphList.
From Coq Require Import Ring_theory Sorted Permutation Lia.
Set Implicit Arguments.

(** The digraph of the examples: a diamond 0 -> {1,2} -> 3 whose edge 0 -> 3 appears late, and a back edge 1 -> 0. *)
Definition ex_time (s t : nat) : option nat_ord :=
  match s, t with
  | 0, 1 => Some 1 | 1, 3 => Some 1 | 0, 2 => Some 2 | 2, 3 => Some 3 | 0, 3 => Some 5 | 1, 0 => Some 2
  | _, _ => None
  end.
Definition ex_table : list (list (option nat_ord)) := map (fun s => map (ex_time s) (seq 0 4)) (seq 0 4).
Lemma ex_digraph : filtered_digraph ex_time 4 0 9.
Proof.
  assert (H : forall s t f, ex_time s t = Some f -> s < 4 /\ t < 4 /\ f < 9).
  { intros [|[|[|[|s]]]] [|[|[|[|t]]]] f; cbn; intros H; try discriminate; injection H as <-; lia. }
  split.
  - intros [|[|[|[|s]]]]; reflexivity.
  - intros s t f E. apply H in E. split; [tauto|]. split; [tauto|]. split; unfold ole, olt; cbn [cmp nat_ord]; [rewrite Nat.compare_gt_iff|rewrite Nat.compare_lt_iff]; lia.
Qed.
Lemma ex_table_ok s t : s < 4 -> t < 4 -> vec_filtration ex_table s t = Ok (ex_time s t).
Proof. intros Hs Ht. destruct s as [|[|[|[|]]]]; try lia; destruct t as [|[|[|[|]]]]; try lia; reflexivity. Qed.
Definition ex_edges : list (nat * nat) := [(0, 1); (1, 3)].
Lemma ex_edges_ok s t : In (s, t) ex_edges -> s < 4 /\ t < 4.
Proof. intros [[= <- <-]|[[= <- <-]|[]]]; lia. Qed.
Lemma ex_edges_nodup : NoDup ex_edges.
Proof. repeat constructor; cbn; intuition congruence. Qed.

(** ** C45: the bridge map holds, for each ordered pair of vertices, the first two-path that beats the edge *)
Theorem C45_primary_bridges :
  forall (F : ordT) (time : nat -> nat -> option F) (n : nat) (z inf : F) (fil : dfil F),
  filtered_digraph time n z inf -> (forall s t, s < n -> t < n -> fil s t = Ok (time s t)) ->
  exists bm, build_primary_bridge_map fil n = Ok bm /\
    (forall s b t : nat, @map_get edge_ord nat (s, t) bm = Some b <-> primary_bridge time s b t) /\
    (forall s t : nat, @map_get edge_ord nat (s, t) bm = None <-> forall b, ~ bridge time s b t).
Proof.
  intros F time n z inf fil HG Hfil. destruct (build_bridge_ok HG fil Hfil) as (bm & Eb & Hbm). exists bm. split; auto. split.
  - intros s b t. rewrite Hbm. apply (bridge_of_spec HG).
  - intros s t. rewrite Hbm. split.
    + intros H b Hb. destruct (bridge_has_primary HG Hb) as (p & Hp). apply (bridge_of_spec HG) in Hp. congruence.
    + intros H. destruct (bridge_of time n s t) as [b|] eqn:Hb; auto. exfalso. apply (bridge_of_spec HG) in Hb. apply (H b). apply Hb.
Qed.
Print Assumptions C45_primary_bridges.
Example C45_ex : exists bm, build_primary_bridge_map (vec_filtration ex_table) 4 = Ok bm /\
  @map_get edge_ord nat (0, 3) bm = Some 1 /\ @map_get edge_ord nat (1, 2) bm = Some 0 /\ @map_get edge_ord nat (0, 0) bm = Some 1 /\
  @map_get edge_ord nat (1, 3) bm = None /\ @map_get edge_ord nat (2, 0) bm = None.
Proof. eexists. split; [vm_compute; reflexivity|]. vm_compute. auto. Qed.

(** ** C46: the columns *)
Theorem C46_coboundary_column :
  forall (K : coeffT) (F : ordT) (time : nat -> nat -> option F) (n : nat) (z inf : F) (fil : dfil F) (E : list (nat * nat)),
  filtered_digraph time n z inf -> (forall s t, s < n -> t < n -> fil s t = Ok (time s t)) ->
  (forall s t, In (s, t) E -> s < n /\ t < n) ->
  exists bm, build_primary_bridge_map fil n = Ok bm /\
  let D := grpph_coboundary (K:=K) z inf fil E n bm in
  forall c f, cell_birth time n z E c f ->
    match c with
    | TwoCell _ => m_col D c = Panic
    | _ => exists col, m_col D c = Ok col /\
        (forall k r, In (k, r) col -> exists g, cell_birth time n z E r g) /\
        (forall r g, cell_birth time n z E r g -> coef col (r : cell_ord) = cell_boundary r c)
    end.
Proof.
  intros K F time n z inf fil E HG Hfil HE. destruct (build_bridge_ok HG fil Hfil) as (bm & Eb & Hbm). exists bm. split; auto. intros D c f Hc.
  assert (H : cell_dimension c <= 1 -> exists col, m_col D c = Ok col /\
        (forall k r, In (k, r) col -> exists g, cell_birth time n z E r g) /\
        (forall r g, cell_birth time n z E r g -> coef col (r : cell_ord) = cell_boundary r c)).
  { intros Hd. exists (gcol time n z inf E c). split; [exact (@gcol_ok K F time n z inf HG fil Hfil E HE bm Hbm c f Hc Hd)|]. split.
    - intros k r Hr. apply (gcol_in HG E HE) in Hr. tauto.
    - intros r g Hr. eapply (gcol_coef HG E HE); eauto. }
  destruct c as [s|s t|X]; [apply H; simpl; lia|apply H; simpl; lia|reflexivity].
Qed.
Print Assumptions C46_coboundary_column.

(** the two matrices are transposes of each other *)
Theorem C46_transpose :
  forall (K : coeffT) (F : ordT) (time : nat -> nat -> option F) (n : nat) (z inf : F) (fil : dfil F) (E : list (nat * nat)),
  filtered_digraph time n z inf -> (forall s t, s < n -> t < n -> fil s t = Ok (time s t)) ->
  (forall s t, In (s, t) E -> s < n /\ t < n) ->
  exists bm, build_primary_bridge_map fil n = Ok bm /\
  let D := grpph_coboundary (K:=K) z inf fil E n bm in
  let B := grpph_boundary (K:=K) z fil E in
  forall c f r g, cell_birth time n z E c f -> cell_birth time n z E r g -> cell_dimension c <= 1 ->
    exists colc colr, m_col D c = Ok colc /\ m_col B r = Ok colr /\ coef colc (r : cell_ord) = coef colr (c : cell_ord).
Proof.
  intros K F time n z inf fil E HG Hfil HE. destruct (build_bridge_ok HG fil Hfil) as (bm & Eb & Hbm). exists bm. split; auto. intros D B c f r g Hc Hr Hd.
  exists (gcol time n z inf E c). eexists. split; [exact (@gcol_ok K F time n z inf HG fil Hfil E HE bm Hbm c f Hc Hd)|]. split; [reflexivity|].
  etransitivity; [eapply (gcol_coef HG E HE); eauto|]. symmetry. exact (boundary_column_coef (K:=K) HG E r g c Hr).
Qed.
Print Assumptions C46_transpose.

(** the columns of the boundary matrix are the boundaries of regular paths *)
Theorem C46_boundary_column :
  forall (K : coeffT) (F : ordT) (time : nat -> nat -> option F) (n : nat) (z inf : F) (fil : dfil F) (E : list (nat * nat)),
  filtered_digraph time n z inf ->
  forall c f, cell_birth time n z E c f ->
  exists col, m_col (grpph_boundary (K:=K) z fil E) c = Ok col /\ forall r : cell, coef col (r : cell_ord) = cell_boundary c r.
Proof.
  intros K F time n z inf fil E HG c f Hc. eexists. split; [reflexivity|]. intros r. exact (boundary_column_coef (K:=K) HG E c _ r Hc).
Qed.
Print Assumptions C46_boundary_column.
Example C46_ex : exists bm, build_primary_bridge_map (vec_filtration ex_table) 4 = Ok bm /\
  let D := grpph_coboundary (K:=Z3_coeff) (0 : nat_ord) 9 (vec_filtration ex_table) ex_edges 4 bm in
  m_col D (Edge 0 1) = Ok [(k_one, TwoCell (DoubleEdge 1 0)); (k_one, TwoCell (DoubleEdge 0 1)); (k_one, TwoCell (DirectedTriangle 0 1 3)); (k_neg k_one, TwoCell (LongSquare 0 1 2 3))] /\
  m_col D (Edge 1 3) = Ok [(k_one, TwoCell (DirectedTriangle 0 1 3)); (k_neg k_one, TwoCell (LongSquare 0 1 2 3)); (k_neg k_one, TwoCell (DirectedTriangle 1 0 3))] /\
  m_col (grpph_boundary (K:=Z3_coeff) (0 : nat_ord) (vec_filtration ex_table) ex_edges) (TwoCell (LongSquare 0 1 2 3)) =
    Ok [(k_one, Edge 2 3); (k_one, Edge 0 2); (k_neg k_one, Edge 1 3); (k_neg k_one, Edge 0 1)].
Proof. eexists. split; [vm_compute; reflexivity|]. vm_compute. auto. Qed.

(** ** C47: the times listed with the entries *)
Theorem C47_times_coherent :
  forall (K : coeffT) (F : ordT) (time : nat -> nat -> option F) (n : nat) (z inf : F) (fil : dfil F) (E : list (nat * nat)),
  filtered_digraph time n z inf -> (forall s t, s < n -> t < n -> fil s t = Ok (time s t)) ->
  (forall s t, In (s, t) E -> s < n /\ t < n) ->
  exists bm, build_primary_bridge_map fil n = Ok bm /\
  let D := grpph_coboundary (K:=K) z inf fil E n bm in
  (forall c f, cell_birth time n z E c f -> m_fil D c = Ok f /\ m_fil (grpph_boundary (K:=K) z fil E) c = Ok f) /\
  (forall c f, cell_birth time n z E c f -> cell_dimension c <= 1 ->
     lists_filtration D c /\
     exists es, m_colf D c = Ok es /\ forall e, In e es -> cell_birth time n z E (e_row e) (e_fil e)).
Proof.
  intros K F time n z inf fil E HG Hfil HE. destruct (build_bridge_ok HG fil Hfil) as (bm & Eb & Hbm). exists bm. split; auto. intros D.
  assert (Hf : forall c f, cell_birth time n z E c f -> m_fil D c = Ok f) by (intros c f Hc; exact (gfil_ok HG fil Hfil E HE c _ Hc)).
  split; [intros c f Hc; split; exact (gfil_ok HG fil Hfil E HE c _ Hc)|].
  intros c f Hc Hd. pose proof (@gcol_ok K F time n z inf HG fil Hfil E HE bm Hbm c f Hc Hd) as Hcol.
  assert (Hes : exists es, m_colf D c = Ok es /\ (forall e, In e es -> cell_birth time n z E (e_row e) (e_fil e)) /\
     Forall2 (fun (p : K * cell_ord) (e : entry F cell_ord K) => e_coeff e = fst p /\ e_row e = snd p) (gcol time n z inf E c) es).
  { destruct c as [s|s t|X]; [| |simpl in Hd; lia].
    - destruct Hc as [Hs _]. cbn [D grpph_coboundary m_colf grpph_coboundary_colf]. unfold grpph_coboundary_colf.
      rewrite (@node_col_ok K F time n z fil Hfil E s Hs). cbn [bind]. eexists. split; [reflexivity|]. split.
      + intros e He. apply in_map_iff in He. destruct He as ([[k c] g] & <- & He). cbn [e_row e_fil fst snd]. apply (node_col_in HG E HE) in He.
        destruct He as [(j & _ & -> & He)|(j & _ & -> & He)]; cbn [cell_birth]; now apply eb_iff.
      + cbn [gcol]. induction (node_col time n z E s) as [|[[k c] g] L IH]; cbn [map]; constructor; auto.
    - cbn [cell_birth] in Hc. apply eb_iff in Hc. apply (eb_lt HG E HE) in Hc. cbn [D grpph_coboundary m_colf]. unfold grpph_coboundary_colf.
      rewrite (edge_col_ok HG fil Hfil bm Hbm) by tauto. cbn [bind]. eexists. split; [reflexivity|]. split.
      + intros e He. apply in_map_iff in He. destruct He as ([[k X] g] & <- & He). cbn [e_row e_fil fst snd cell_birth]. apply (edge_col_gen HG) in He. exact He.
      + cbn [gcol]. induction (edge_col time n inf s t) as [|[[k X] g] L IH]; cbn [map]; constructor; auto. }
  destruct Hes as (es & Ees & Hb & H2). split; [|eauto]. exists (gcol time n z inf E c), es. split; [exact Hcol|]. split; [exact Ees|].
  clear - H2 Hb Hf. induction H2 as [|p e L es [H1 H2'] H IH]; constructor.
  - split; auto. split; auto. rewrite <- H2'. apply Hf. apply Hb. simpl; auto.
  - apply IH. intros e' He'. apply Hb. simpl; auto.
Qed.
Print Assumptions C47_times_coherent.
Example C47_ex : exists bm, build_primary_bridge_map (vec_filtration ex_table) 4 = Ok bm /\
  let D := grpph_coboundary (K:=Z3_coeff) (0 : nat_ord) 9 (vec_filtration ex_table) ex_edges 4 bm in
  m_colf D (Edge 1 3) = Ok [@Entry nat_ord cell_ord Z3_coeff 5 (TwoCell (DirectedTriangle 0 1 3)) k_one;
                            @Entry nat_ord cell_ord Z3_coeff 3 (TwoCell (LongSquare 0 1 2 3)) (k_neg k_one);
                            @Entry nat_ord cell_ord Z3_coeff 5 (TwoCell (DirectedTriangle 1 0 3)) (k_neg k_one)] /\
  m_fil D (TwoCell (LongSquare 0 1 2 3)) = Ok 3 /\ m_fil D (Edge 0 1) = Ok 0.
Proof. eexists. split; [vm_compute; reflexivity|]. vm_compute. auto. Qed.

(** If times may equal the [inf] that the code uses as "never", the matrices are no longer transposes: a long
    square appearing at time [inf] is listed in the columns of its late edges but not in those of its early ones. *)
Definition bad_time (s t : nat) : option nat_ord :=
  match s, t with 0, 1 => Some 1 | 1, 3 => Some 1 | 0, 2 => Some 9 | 2, 3 => Some 9 | _, _ => None end.
Theorem C47_infinite_times_refuted :
  ~ (forall (F : ordT) (time : nat -> nat -> option F) (n : nat) (z inf : F),
     (forall s, time s s = None) ->
     (forall s t f, time s t = Some f -> s < n /\ t < n /\ ole z f /\ ole f inf) ->
     exists bm, build_primary_bridge_map (fun s t => Ok (time s t)) n = Ok bm /\
     forall c r, match m_col (grpph_coboundary (K:=Z2_coeff) z inf (fun s t => Ok (time s t)) [] n bm) c,
                       m_col (grpph_boundary (K:=Z2_coeff) z (fun s t => Ok (time s t)) []) r with
                 | Ok colc, Ok colr => generator time (match r with TwoCell X => X | _ => DoubleEdge 0 0 end) inf ->
                     coef colc (r : cell_ord) = coef colr (c : cell_ord)
                 | _, _ => True
                 end).
Proof.
  intros H. destruct (H nat_ord bad_time 4 0 9) as (bm & Eb & Hbm).
  - intros [|[|[|[|s]]]]; reflexivity.
  - intros s t f Ef. assert (s < 4 /\ t < 4 /\ f <= 9).
    { destruct s as [|[|[|[|s]]]], t as [|[|[|[|t]]]]; cbn in Ef; try discriminate; injection Ef as <-; lia. }
    split; [tauto|]. split; [tauto|]. split; unfold ole; cbn [cmp nat_ord]; rewrite Nat.compare_gt_iff; lia.
  - vm_compute in Eb. injection Eb as <-. specialize (Hbm (Edge 0 1) (TwoCell (LongSquare 0 1 2 3))). 
    assert (Hgen : generator bad_time (LongSquare 0 1 2 3) 9).
    { apply gen_square; try discriminate; try reflexivity.
      - split; [exists 1; split; [reflexivity|discriminate]|]. intros b' f f' [= <-] Hb'. cbn in Hb'.
        destruct b' as [|[|[|[|b']]]]; cbn in Hb'; try discriminate; injection Hb' as <-; [right; split; auto|left; reflexivity].
      - exists 9. split; [reflexivity|discriminate]. }
    apply Hbm in Hgen. vm_compute in Hgen. discriminate.
Qed.
Print Assumptions C47_infinite_times_refuted.

(** ** C48: chain complexes with monotone filtrations *)
Theorem C48_boundary_squared :
  forall (K : coeffT) (F : ordT) (time : nat -> nat -> option F) (n : nat) (z inf : F) (fil : dfil F) (E : list (nat * nat)) (l : list cell),
  filtered_digraph time n z inf -> (forall s t, In (s, t) E -> s < n /\ t < n) ->
  NoDup l -> (forall c, In c l <-> exists f, cell_birth time n z E c f) ->
  let B := mden (m_col (grpph_boundary (K:=K) z fil E)) in
  forall c, In c l ->
    (forall r, B c r <> f0 -> In r l) /\ vzero (lincomb (l : list cell_ord) (B c) B) /\
    forall r f g, B c r <> f0 -> cell_birth time n z E c f -> cell_birth time n z E r g -> ole g f.
Proof.
  intros K F time n z inf fil E l HG HE Hl Hin B c Hc.
  assert (HB : forall c r, In c l -> B c r = cell_boundary (K:=K) c r).
  { intros c' r Hc'. apply Hin in Hc'. destruct Hc' as (f & Hf). exact (boundary_column_coef (K:=K) HG E c' _ r Hf). }
  split; [|split].
  - intros r Hn. rewrite HB in Hn by auto. apply Hin in Hc. destruct Hc as (f & Hf). destruct (bd_births (K:=K) HG E HE _ _ _ Hf Hn) as (g & Hg & _). apply Hin. eauto.
  - intros r. unfold lincomb. pose proof Hc as Hc'. apply Hin in Hc'. destruct Hc' as (f & Hf).
    transitivity (vsum l (fun e => fmul (cell_boundary (K:=K) c e) (cell_boundary e r))).
    + apply vsum_ext. intros e He. now rewrite !HB.
    + apply (@bd_bd K F time n z inf HG E l c f r); auto. intros s t g Hg. apply Hin. exists g. cbn [cell_birth]. now apply eb_iff.
  - intros r f g Hn Hf Hg. rewrite HB in Hn by auto. destruct (bd_births (K:=K) HG E HE _ _ _ Hf Hn) as (h & Hh & Hle).
    rewrite (birth_fun time n z E r g h Hg Hh). exact Hle.
Qed.
Print Assumptions C48_boundary_squared.

Theorem C48_coboundary_squared :
  forall (K : coeffT) (F : ordT) (time : nat -> nat -> option F) (n : nat) (z inf : F) (fil : dfil F) (E : list (nat * nat)) (l : list cell),
  filtered_digraph time n z inf -> (forall s t, s < n -> t < n -> fil s t = Ok (time s t)) -> (forall s t, In (s, t) E -> s < n /\ t < n) ->
  NoDup l -> (forall c, In c l <-> exists f, cell_birth time n z E c f) ->
  exists bm, build_primary_bridge_map fil n = Ok bm /\
  let D := mden (m_col (grpph_coboundary (K:=K) z inf fil E n bm)) in
  forall c, In c l -> cell_dimension c <= 1 ->
    (forall r, D c r <> f0 -> In r l) /\ (cell_dimension c = 0 -> vzero (lincomb (l : list cell_ord) (D c) D)) /\
    forall r f g, D c r <> f0 -> cell_birth time n z E c f -> cell_birth time n z E r g -> ole f g.
Proof.
  intros K F time n z inf fil E l HG Hfil HE Hl Hin. destruct (build_bridge_ok HG fil Hfil) as (bm & Eb & Hbm). exists bm. split; auto. intros D.
  assert (HD : forall c r, In c l -> cell_dimension c <= 1 -> In r l -> D c r = cell_boundary (K:=K) r c).
  { intros c r Hc Hd Hr. apply Hin in Hc, Hr. destruct Hc as (f & Hf). destruct Hr as (g & Hg). unfold D, mden.
    rewrite (@gcol_ok K F time n z inf HG fil Hfil E HE bm Hbm c f Hf Hd). eapply (gcol_coef HG E HE); eauto. }
  assert (HDin : forall c r, In c l -> cell_dimension c <= 1 -> D c r <> f0 -> In r l /\ cell_dimension r = cell_dimension c + 1).
  { intros c r Hc Hd Hn. apply Hin in Hc. destruct Hc as (f & Hf). unfold D, mden in Hn. rewrite (@gcol_ok K F time n z inf HG fil Hfil E HE bm Hbm c f Hf Hd) in Hn.
    apply coef_in in Hn. destruct Hn as (k & Hk). apply (gcol_in HG E HE) in Hk. rewrite Hin. tauto. }
  intros c Hc Hd. split; [intros r Hn; apply (HDin c r Hc Hd Hn)|]. split.
  - intros H0 r. destruct (fscalar_dec (lincomb (l : list cell_ord) (D c) D r)) as [|Hn]; auto. exfalso.
    assert (Hr : In r l).
    { apply lincomb_nonzero in Hn. destruct Hn as (e & He & Hx & Hn). apply (HDin e r He); auto. apply HDin in Hx; auto. lia. }
    apply Hn. unfold lincomb. pose proof Hr as Hr'. apply Hin in Hr'. destruct Hr' as (g & Hg).
    etransitivity; [|apply (@bd_bd K F time n z inf HG E l r g c Hl); auto].
    + apply vsum_ext. intros e He. destruct (Nat.le_gt_cases (cell_dimension e) 1) as [Hd1|Hd1].
      * rewrite !HD by auto. apply (Rmul_comm (F_ring K)).
      * assert (E1 : D c e = f0).
        { destruct (fscalar_dec (D c e)) as [|Hx]; auto. apply HDin in Hx; auto. lia. }
        assert (E2 : cell_boundary (K:=K) e c = f0) by (rewrite <- HD; auto). rewrite E1, E2. pose proof (F_ring K) as R. 
        rewrite (Rmul_comm R (cell_boundary r e) f0). destruct (D e r), (cell_boundary r e); reflexivity.
    + intros s t h Hh. apply Hin. exists h. cbn [cell_birth]. now apply eb_iff.
  - intros r f g Hn Hf Hg. destruct (HDin c r Hc Hd Hn) as [Hr _]. rewrite HD in Hn by auto. destruct (bd_births (K:=K) HG E HE _ _ _ Hg Hn) as (h & Hh & Hle).
    rewrite (birth_fun time n z E c f h Hf Hh). exact Hle.
Qed.
Print Assumptions C48_coboundary_squared.

(** a listing of the cells exists for every filtered digraph *)
Theorem C48_cells_listed :
  forall (F : ordT) (time : nat -> nat -> option F) (n : nat) (z inf : F) (E : list (nat * nat)),
  filtered_digraph time n z inf -> (forall s t, In (s, t) E -> s < n /\ t < n) -> NoDup E ->
  exists phi l, cell_listing time n z E phi l.
Proof. intros F time n z inf E HG HE HEn. eexists. eexists. eapply listing_ok; eauto. Qed.
Print Assumptions C48_cells_listed.
Example C48_ex : listing ex_time 4 0 9 ex_edges =
  [Node 0; Node 1; Node 2; Node 3;
   Edge 0 1; Edge 1 3; Edge 0 2; Edge 1 0; Edge 2 3; Edge 0 3;
   TwoCell (DoubleEdge 0 1); TwoCell (DoubleEdge 1 0); TwoCell (LongSquare 0 1 2 3); TwoCell (DirectedTriangle 0 1 3); TwoCell (DirectedTriangle 1 0 3)].
Proof. vm_compute. reflexivity. Qed.

(** ** C49: the bases *)
Theorem C49_basis :
  forall (F : ordT) (time : nat -> nat -> option F) (n : nat) (z inf : F) (fil : dfil F) (E : list (nat * nat)),
  filtered_digraph time n z inf -> (forall s t, s < n -> t < n -> fil s t = Ok (time s t)) ->
  (forall s t, In (s, t) E -> s < n /\ t < n) -> NoDup E ->
  exists b0 b1, build_basis z fil E n = Ok [b0; b1] /\
    StronglySorted (@olt (pair_ord F cell_ord)) b0 /\ StronglySorted (@olt (pair_ord F cell_ord)) b1 /\
    (forall f c, In (f, c) b0 <-> exists s, s < n /\ f = z /\ c = Node s) /\
    (forall f c, In (f, c) b1 <-> exists s t, edge_birth time z E s t f /\ c = Edge s t).
Proof.
  intros F time n z inf fil E HG Hfil HE HEn. exists (gb time n z E 0), (gb time n z E 1).
  split; [exact (@basis_built F time n z fil Hfil E)|]. split; [now apply gb_sorted|]. split; [now apply gb_sorted|]. split.
  - intros f c. rewrite (gb_in HG E HE f c) by lia. split.
    + intros [Hd Hb]. destruct c as [s|s t|X]; try discriminate. exists s. destruct Hb. auto.
    + intros (s & Hs & -> & ->). split; auto. split; auto.
  - intros f c. rewrite (gb_in HG E HE f c) by lia. split.
    + intros [Hd Hb]. destruct c as [s|s t|X]; try discriminate. exists s, t. auto.
    + intros (s & t & Hb & ->). split; auto.
Qed.
Print Assumptions C49_basis.
Example C49_ex : build_basis (0 : nat_ord) (vec_filtration ex_table) ex_edges 4 = Ok
  [[(0, Node 0); (0, Node 1); (0, Node 2); (0, Node 3)];
   [(0, Edge 0 1); (0, Edge 1 3); (2, Edge 0 2); (2, Edge 1 0); (3, Edge 2 3); (5, Edge 0 3)]].
Proof. vm_compute. reflexivity. Qed.

(** The two filtration tables: a map filled by insertions answers with the last time inserted for that ordered pair
    and [None] otherwise, and never panics; a vector of vectors answers with the entry in row source, column target,
    and panics beyond its rows. *)
Theorem C49_map_table :
  forall (F : ordT) (ins : list (nat * nat * F)) (s t : nat),
  let m := fold_left (fun m p => @map_insert edge_ord F (fst p) (snd p) m) ins ([] : kmap edge_ord F) in
  exists o, map_filtration m s t = Ok o /\
    (forall f, o = Some f <-> exists pre post, ins = pre ++ (s, t, f) :: post /\ forall g, ~ In (s, t, g) post) /\
    (o = None <-> forall f, ~ In (s, t, f) ins).
Proof.
  intros F ins s t m. exists (@map_get edge_ord F (s, t) m). split; [reflexivity|].
  assert (H : forall ins, 
    (exists f, @map_get edge_ord F (s, t) (fold_left (fun m p => @map_insert edge_ord F (fst p) (snd p) m) ins ([] : kmap edge_ord F)) = Some f /\
       exists pre post, ins = pre ++ (s, t, f) :: post /\ forall g, ~ In (s, t, g) post) \/
    (@map_get edge_ord F (s, t) (fold_left (fun m p => @map_insert edge_ord F (fst p) (snd p) m) ins ([] : kmap edge_ord F)) = None /\
       forall f, ~ In (s, t, f) ins)).
  { clear. induction ins as [|[e f] ins IH] using rev_ind; [right; split; [reflexivity|intros f []]|].
    rewrite fold_left_app. cbn [fold_left fst snd]. rewrite (@map_get_insert edge_ord F). destruct (oeqb (T := edge_ord) e (s, t)) eqn:Ee.
    - apply oeqb_eq in Ee. subst e. left. exists f. split; auto. exists ins, []. split; auto.
    - apply oeqb_neq in Ee. destruct IH as [(f' & E1 & pre & post & -> & Hp)|[E1 Hn]].
      + left. exists f'. split; auto. exists pre, (post ++ [(e, f)]). split; [rewrite <- app_assoc; reflexivity|].
        intros g Hg. apply in_app_iff in Hg. destruct Hg as [Hg|[[= -> _]|[]]]; [exact (Hp _ Hg)|now apply Ee].
      + right. split; auto. intros g Hg. apply in_app_iff in Hg. destruct Hg as [Hg|[[= -> _]|[]]]; [exact (Hn _ Hg)|now apply Ee]. }
  assert (Huniq : forall f g pre post pre' post', ins = pre ++ (s, t, f) :: post -> (forall h, ~ In (s, t, h) post) ->
    ins = pre' ++ (s, t, g) :: post' -> (forall h, ~ In (s, t, h) post') -> f = g).
  { clear. intros f g pre post pre' post' -> H1 E H2. revert pre' E. induction pre as [|x pre IH]; intros [|y pre'] E; cbn in E.
    - congruence.
    - injection E as _ E. exfalso. apply (H1 g). rewrite E. apply in_app_iff. right. left. reflexivity.
    - injection E as _ E. exfalso. apply (H2 f). rewrite <- E. apply in_app_iff. right. left. reflexivity.
    - injection E as _ E. eauto. }
  destruct (H ins) as [(f & E1 & pre & post & E2 & Hp)|[E1 Hn]]; fold m in E1; rewrite E1; split.
  - intros g. split; [intros [= <-]; eauto|]. intros (pre' & post' & E3 & Hp'). f_equal. eapply Huniq; [exact E2| |exact E3|]; assumption.
  - split; [discriminate|]. intros Hn. exfalso. apply (Hn f). rewrite E2. apply in_app_iff. right. left. reflexivity.
  - intros g. split; [discriminate|]. intros (pre & post & E & _). exfalso. apply (Hn g). rewrite E. apply in_app_iff. right. left. reflexivity.
  - split; auto.
Qed.
Print Assumptions C49_map_table.

Theorem C49_vec_table :
  forall (F : ordT) (rows : list (list (option F))) (s t : nat) (row : list (option F)) (pre post : list (list (option F))) (o : option F) (rpre rpost : list (option F)),
  (rows = pre ++ row :: post -> length pre = s -> row = rpre ++ o :: rpost -> length rpre = t ->
     vec_filtration rows s t = Ok o) /\
  (length rows <= s -> vec_filtration rows s t = Panic).
Proof.
  intros F rows s t row pre post o rpre rpost. split.
  - intros -> <- -> <-. unfold vec_filtration, index. rewrite nth_error_app2, Nat.sub_diag by auto. cbn. rewrite nth_error_app2, Nat.sub_diag by auto. reflexivity.
  - intros H. unfold vec_filtration, index. apply nth_error_None in H. rewrite H. reflexivity.
Qed.
Print Assumptions C49_vec_table.
Example C49_table_ex :
  let m := fold_left (fun m p => @map_insert edge_ord nat_ord (fst p) (snd p) m) [((0, 1), 5); ((1, 0), 7); ((0, 1), 4)] ([] : kmap edge_ord nat_ord) in
  map_filtration m 0 1 = Ok (Some 4) /\ map_filtration m 1 0 = Ok (Some 7) /\ map_filtration m 1 1 = Ok None /\
  vec_filtration ex_table 1 0 = Ok (Some 2) /\ vec_filtration ex_table 4 0 = Panic.
Proof. vm_compute. auto. Qed.
