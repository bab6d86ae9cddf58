(** Property theorems C34: a matrix and its anti-transpose have the same pairs. *)
From Verif Require Import Base Fields FieldsFacts Spec LinAlg Columns ColumnsFacts Matrices SpecMat MatricesFacts Reduction LoopProofs StandardProofs ReadOffProofs Graded StandardResults Examples ClearingProofs PropClearing Duality.

(** C34, on intrinsic pairs: [D'] is the matrix [D] with rows and columns exchanged; reversing every order,
    its pairs are those of [D] with birth and death exchanged, and its essential classes those of [D].
    The grading may be trivial ([g] constant, [e = 0]), the basis being then listed in row order. *)
Theorem C34_duality_intrinsic :
  forall (K : coeffT) (C F : ordT) (phi : C -> F) (l : list C) (D : C -> vec K C) (D' : rev_ord C -> vec K (rev_ord C)),
  NoDup l ->
  (forall c r, In c l -> D c r <> f0 -> In r l) ->
  (forall c r, In c (rev_basis l) -> D' c r <> f0 -> In r (rev_basis l)) ->
  (forall c r, In c l -> In r l -> D' (Reverse r) (Reverse c) = D c r) ->
  forall (g : C -> Z) (e : Z), graded g e l D -> graded_order phi g l ->
  (forall i j, In i l -> In j l ->
     (is_pair phi l D i j <->
      is_pair (rev_filtration phi : rev_ord C -> rev_ord F) (rev_basis l : list (rev_ord C)) D' (Reverse j : rev_ord C) (Reverse i : rev_ord C))) /\
  (forall c, is_essential phi l D c <->
     is_essential (rev_filtration phi : rev_ord C -> rev_ord F) (rev_basis l : list (rev_ord C)) D' (Reverse c : rev_ord C)).
Proof.
  intros K C F phi l D D' Hl H1 H2 H3 g e Hg HO. split.
  - exact (@pair_dual K F C phi l D D' Hl H1 H2 H3 g e Hg HO).
  - exact (@essential_dual K F C phi l D D' g e Hl H1 H2 H3 Hg HO).
Qed.
Print Assumptions C34_duality_intrinsic.

Section Runs.
  Context {K : coeffT} {C F : ordT} (phi : C -> F).
  Notation pr := (rev_filtration phi : rev_ord C -> rev_ord F).

  (** the runs: a boundary-like matrix [D] (columns contain earlier elements) and its anti-transpose [D'] *)
  Theorem C34_standard_algo_duality :
    forall (HI HI' : heaps) (D : fmatrix K C C F) (D' : fmatrix K (rev_ord C) (rev_ord C) (rev_ord F))
      (b : basis C) (b' : basis (rev_ord C)) (l : list C),
    square_matrix phi D b l -> square_matrix pr D' b' (rev_basis l : list (rev_ord C)) ->
    (forall c r, In c l -> mden (m_col D) c r <> f0 -> before l r c) ->
    (forall c r, In c (rev_basis l) -> mden (m_col D') c r <> f0 -> In r (rev_basis l)) ->
    (forall c r, In c l -> In r l -> mden (m_col D') (Reverse r) (Reverse c) = mden (m_col D) c r) ->
    forall (g : C -> Z) (e : Z), graded g e l (mden (m_col D)) -> graded_order phi g l ->
    forall fuel fuel', length (row_set (m_col D) l) < fuel ->
      length (row_set (m_col D') (rev_basis l : list (rev_ord C))) < fuel' ->
    exists v dg v' dg',
      standard_algo_with_diagram HI fuel D b false = Ok (v, dg) /\
      standard_algo_with_diagram HI' fuel' D' b' false = Ok (v', dg') /\
      (forall i j, In (i, j) (pairings dg) <-> In (Reverse j, Reverse i) (pairings dg')) /\
      (forall c, In c (essential dg) <-> In (Reverse c) (essential dg')).
  Proof.
    intros HI HI' D D' b b' l Hsq Hsq' HU Hrows' Heq g e Hg HO fuel fuel' Hf Hf'.
    assert (Hrows : forall c r, In c l -> mden (m_col D) c r <> f0 -> In r l).
    { intros c r Hc Hn. apply (@before_in C l r c). auto. }
    assert (HU' : forall c r, In c (rev_basis l : list (rev_ord C)) -> mden (m_col D') c r <> f0 -> before (rev_basis l : list (rev_ord C)) r c).
    { intros [c] [r] Hc Hn. pose proof (Hrows' _ _ Hc Hn) as Hr. apply (rev_basis_in l) in Hc, Hr.
      apply (rev_basis_before l). apply HU; auto. rewrite <- Heq; auto. }
    pose proof (proj1 Hsq) as Hl.
    destruct (@C34_duality_intrinsic K C F phi l _ _ Hl Hrows Hrows' Heq g e Hg HO) as [HP HE].
    destruct (std_diagram HI Hsq Hf false) as (v & dg & E & _ & _ & _ & _ & Hp & He & _).
    destruct (std_diagram HI' Hsq' Hf' false) as (v' & dg' & E' & _ & _ & _ & _ & Hp' & He' & _).
    exists v, dg, v', dg'. split; auto. split; auto.
    assert (Hin : forall i j, is_pair phi l (mden (m_col D)) i j -> In i l) by (intros i j; apply pair_rows_in; auto).
    assert (Hin' : forall i j, is_pair pr (rev_basis l : list (rev_ord C)) (mden (m_col D')) i j -> In i (rev_basis l))
      by (intros i j; exact (@pair_rows_in K (rev_ord F) (rev_ord C) pr (rev_basis l) _ Hrows' i j)).
    split.
    - intros i j. rewrite Hp, Hp'. split.
      + intros [Hj Hij]. assert (Hi := Hin _ _ Hij). split; [now apply (rev_basis_in l)|]. apply HP; auto.
      + intros [Hi Hij]. assert (Hj := Hin' _ _ Hij). apply (rev_basis_in l) in Hi, Hj. split; auto. apply HP; auto.
    - intros c. rewrite He, He'; [apply HE| |].
      + intros i j _ Hj. apply (lower_pairs_before Hsq' HU'). auto.
      + intros i j _ Hj. apply (lower_pairs_before Hsq HU). auto.
  Qed.

  (** homology by the standard algorithm, cohomology by the clearing algorithm *)
  Theorem C34_standard_vs_clearing_duality :
    forall (HI HI' : heaps) (D : fmatrix K C C F) (D' : fmatrix K (rev_ord C) (rev_ord C) (rev_ord F))
      (b : basis C) (l : list C) (sb : split_basis (rev_ord C)) (dims : list nat) (blocks : list (list (rev_ord C))),
    square_matrix phi D b l -> block_complex pr D' sb dims blocks ->
    (forall c, In c (concat blocks) <-> In c (rev_basis l)) ->
    (forall blk x y, In blk blocks -> before blk x y -> before (rev_basis l : list (rev_ord C)) x y) ->
    (forall c r, In c l -> mden (m_col D) c r <> f0 -> before l r c) ->
    (forall c r, In c (rev_basis l) -> mden (m_col D') c r <> f0 -> In r (rev_basis l)) ->
    (forall c r, In c l -> In r l -> mden (m_col D') (Reverse r) (Reverse c) = mden (m_col D) c r) ->
    forall (g : C -> Z) (e : Z), graded g e l (mden (m_col D)) -> graded_order phi g l ->
    forall fuel fuel', length (row_set (m_col D) l) < fuel -> length (row_set (m_col D') (concat blocks)) < fuel' ->
    exists v dg rc dg',
      standard_algo_with_diagram HI fuel D b false = Ok (v, dg) /\
      build_with_diagram HI' fuel' D' sb dims = Ok (rc, dg') /\
      (forall i j, In (i, j) (pairings dg) <-> In (Reverse j, Reverse i) (pairings dg')) /\
      (forall c, In c (essential dg) <-> In (Reverse c) (essential dg')).
  Proof.
    intros HI HI' D D' b l sb dims blocks Hsq HB Hs Ho HU Hrows' Heq g e Hg HO fuel fuel' Hf Hf'.
    assert (Hrows : forall c r, In c l -> mden (m_col D) c r <> f0 -> In r l).
    { intros c r Hc Hn. apply (@before_in C l r c). auto. }
    pose proof (proj1 Hsq) as Hl.
    destruct (@C34_duality_intrinsic K C F phi l _ _ Hl Hrows Hrows' Heq g e Hg HO) as [HP HE].
    destruct (std_diagram HI Hsq Hf false) as (v & dg & E & _ & _ & _ & _ & Hp & He & _).
    destruct (@C32_clearing_intrinsic HI' K (rev_ord C) (rev_ord F) pr D' sb dims blocks HB fuel' Hf') as (rc & dg' & E' & _ & _ & Hd).
    destruct (Hd (rev_basis l) (rev_basis_nodup Hl)) as [Hp' He']; auto; [intros c; symmetry; apply Hs|].
    exists v, dg, rc, dg'. split; auto. split; auto.
    assert (Hin : forall i j, is_pair phi l (mden (m_col D)) i j -> In i l) by (intros i j; apply pair_rows_in; auto).
    assert (Hin' : forall i j, is_pair pr (rev_basis l : list (rev_ord C)) (mden (m_col D')) i j -> In i (rev_basis l))
      by (intros i j; exact (@pair_rows_in K (rev_ord F) (rev_ord C) pr (rev_basis l) _ Hrows' i j)).
    split.
    - intros i j. rewrite Hp, Hp'. split.
      + intros [Hj Hij]. assert (Hi := Hin _ _ Hij). split; [now apply (rev_basis_in l)|]. apply HP; auto.
      + intros [Hi Hij]. assert (Hj := Hin' _ _ Hij). apply (rev_basis_in l) in Hi, Hj. split; auto. apply HP; auto.
    - intros c. rewrite He, He'; [apply HE|].
      intros i j _ Hj. apply (lower_pairs_before Hsq HU). auto.
  Qed.
End Runs.
Print Assumptions C34_standard_algo_duality.
Print Assumptions C34_standard_vs_clearing_duality.

(** ** The filled triangle and its reversed coboundary *)
Definition tri_cocols : list (list (Z3_coeff * rev_ord nat_ord)) :=
  [ [(a2, Reverse 3); (a2, Reverse 4)]; [(a1, Reverse 3); (a2, Reverse 5)]; [(a1, Reverse 4); (a1, Reverse 5)];
    [(a1, Reverse 6)]; [(a2, Reverse 6)]; [(a1, Reverse 6)]; [] ].
Definition tri_co : fmatrix Z3_coeff (rev_ord nat_ord) (rev_ord nat_ord) (rev_ord nat_ord) :=
  with_filtration (C:=rev_ord nat_ord) (F:=rev_ord nat_ord) (fun c : rev_ord nat_ord => index tri_cocols (unrev c))
    (fun r : rev_ord nat_ord => Ok (rev_filtration (F:=nat_ord) tri_fil r)).
Definition tri_lr : list (rev_ord nat_ord) := rev_basis tri_l.
Definition tri_bco : basis (rev_ord nat_ord) := Basis 7 (fun i => index tri_lr i).

Example C34_ex_square : square_matrix (F:=rev_ord nat_ord) (rev_filtration tri_fil : rev_ord nat_ord -> rev_ord nat_ord) tri_co tri_bco tri_lr.
Proof.
  split; [apply rev_basis_nodup, seq_NoDup|]. split.
  - split; auto. intros i c H. simpl. unfold index. now rewrite H.
  - intros [c] Hc. apply (rev_basis_in tri_l) in Hc. apply in_seq in Hc.
    do 7 (destruct c as [|c]; [eapply (@with_filtration_coherent Z3_coeff (rev_ord nat_ord) (rev_ord nat_ord) (rev_ord nat_ord)); reflexivity|]). lia.
Qed.
Example C34_ex_transposed : forall c r, In c tri_l -> In r tri_l ->
  mden (m_col tri_co) (Reverse r) (Reverse c) = mden (m_col tri_D) c r.
Proof.
  assert (H : forallb (fun c => forallb (fun r => match mden (m_col tri_co) (Reverse r) (Reverse c), mden (m_col tri_D) c r with
      | Some a, Some b => (proj1_sig a =? proj1_sig b)%Z | None, None => true | _, _ => false end) tri_l) tri_l = true) by (vm_compute; reflexivity).
  intros c r Hc Hr. rewrite forallb_forall in H. specialize (H c Hc). rewrite forallb_forall in H. specialize (H r Hr). revert H.
  destruct (mden (m_col tri_co) (Reverse r) (Reverse c)) as [[a Ha]|], (mden (m_col tri_D) c r) as [[b Hb]|]; try discriminate; auto.
  simpl. intros E. apply Z.eqb_eq in E. subst b. f_equal. f_equal. apply Eqdep_dec.UIP_dec. apply Bool.bool_dec.
Qed.
Example C34_ex_rows : forall c r, In c (rev_basis tri_l) -> mden (m_col tri_co) c r <> f0 -> In r (rev_basis tri_l).
Proof.
  intros c r Hc Hn. apply (@set_mem_iff (rev_ord nat_ord)).
  apply (@entries_check Z3_coeff (rev_ord nat_ord) (rev_ord nat_ord) (m_col tri_co) tri_lr (fun _ r => set_mem r tri_lr)) with (c := c);
    [vm_compute; reflexivity|exact Hc|exact Hn].
Qed.
Example C34_ex_diagrams :
  (exists v, standard_algo_with_diagram list_heaps 7 tri_D tri_b false = Ok (v, @Diagram nat_ord [0] [(5, 6); (2, 4); (1, 3)])) /\
  (exists v, standard_algo_with_diagram list_heaps 7 tri_co tri_bco false =
     Ok (v, @Diagram (rev_ord nat_ord) [Reverse 0] [(Reverse 3, Reverse 1); (Reverse 4, Reverse 2); (Reverse 6, Reverse 5)])).
Proof. split; eexists; vm_compute; reflexivity. Qed.
