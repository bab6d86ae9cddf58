(** Property theorems C22-C29: the standard algorithm and [read_off_diagram]. *)
From Verif Require Import Base Fields FieldsFacts Spec LinAlg Columns Matrices SpecMat Reduction StandardProofs ReadOffProofs Graded StandardResults Determinism Examples.
From Coq Require Import Sorted.

(** C22: for every coherent square matrix, the algorithm returns within
    (number of distinct rows + 1) reduction steps per column, without panicking; V
    has exactly one column per basis element. *)
Theorem C22_standard_algo_terminates :
  forall (HI : heaps) (K : coeffT) (C F : ordT) (phi : C -> F) (D : fmatrix K C C F) (b : basis C) (l : list C),
  square_matrix phi D b l ->
  forall fuel, length (row_set (m_col D) l) < fuel ->
  exists v, standard_algo HI fuel D b = Ok v /\ forall c, In c l <-> map_get c v <> None.
Proof. exact std_ok. Qed.
Print Assumptions C22_standard_algo_terminates.

Example C22_ex : square_matrix tri_fil tri_D tri_b tri_l /\ length (row_set (m_col tri_D) tri_l) < 7.
Proof. split; [exact tri_square|vm_compute; auto 10]. Qed.

(** C23 *)
Theorem C23_V_unitriangular :
  forall (HI : heaps) (K : coeffT) (C F : ordT) (phi : C -> F) (D : fmatrix K C C F) (b : basis C) (l : list C),
  square_matrix phi D b l ->
  forall fuel, length (row_set (m_col D) l) < fuel ->
  forall v, standard_algo HI fuel D b = Ok v ->
  forall j, In j l ->
  exists col, map_get j v = Some col /\
    coef col j = f1 /\
    (forall k x, In (k, x) col -> x = j \/ before l x j) /\
    StronglySorted (fun x y => olt y x) (map snd col).
Proof. exact std_columns. Qed.
Print Assumptions C23_V_unitriangular.

(** C24 *)
Theorem C24_R_reduced :
  forall (HI : heaps) (K : coeffT) (C F : ordT) (phi : C -> F) (D : fmatrix K C C F) (b : basis C) (l : list C),
  square_matrix phi D b l ->
  forall fuel, length (row_set (m_col D) l) < fuel ->
  forall v, standard_algo HI fuel D b = Ok v ->
  (forall c, In c l -> exists t, product (m_col D) (mapvec_column v) c = Ok t) /\
  reduced phi l (mden (product (m_col D) (mapvec_column v))).
Proof. exact std_reduced. Qed.
Print Assumptions C24_R_reduced.

(** C25: the pairs are intrinsic, whatever the traversal direction *)
Theorem C25_pairs_intrinsic :
  forall (HI : heaps) (K : coeffT) (C F : ordT) (phi : C -> F) (D : fmatrix K C C F) (b : basis C) (l : list C),
  square_matrix phi D b l ->
  forall fuel, length (row_set (m_col D) l) < fuel ->
  forall reverse_order, exists v dg,
    standard_algo_with_diagram HI fuel D b reverse_order = Ok (v, dg) /\ NoDup (pairings dg) /\
    forall i j, In (i, j) (pairings dg) <-> In j l /\ is_pair phi l (mden (m_col D)) i j.
Proof.
  intros HI K C F phi D b l Hsq fuel Hf ro.
  destruct (std_diagram HI Hsq Hf ro) as (v & dg & E & _ & _ & _ & N & H & _).
  exists v, dg. auto.
Qed.
(** C23-C25 on the filled triangle *)
Example C23_C24_C25_ex : exists v, standard_algo list_heaps 7 tri_D tri_b = Ok v /\
  map_get (5 : nat_ord) v = Some [(a1, 5); (a2, 4); (a1, 3)] /\
  is_pair (F:=nat_ord) tri_fil tri_l (mden (m_col tri_D)) 5 6 /\ is_pair (F:=nat_ord) tri_fil tri_l (mden (m_col tri_D)) 2 4.
Proof.
  assert (Hf : length (row_set (m_col tri_D) tri_l) < 7) by (vm_compute; auto 10).
  destruct (C25_pairs_intrinsic list_heaps _ _ _ _ _ _ _ tri_square 7 Hf false) as (v & dg & E & _ & Hp).
  assert (E2 : exists v', standard_algo_with_diagram list_heaps 7 tri_D tri_b false = Ok (v', @Diagram nat_ord [0] [(5, 6); (2, 4); (1, 3)]) /\
    standard_algo list_heaps 7 tri_D tri_b = Ok v' /\ map_get (5 : nat_ord) v' = Some [(a1, 5); (a2, 4); (a1, 3)])
    by (eexists; vm_compute; repeat split; reflexivity).
  destruct E2 as (v' & E2 & E3 & E4). rewrite E in E2. injection E2 as <- ->. exists v. split; [exact E3|]. split; [exact E4|].
  split; apply Hp; simpl; tauto.
Qed.
Print Assumptions C25_pairs_intrinsic.

(** C25, second half: any triangular V with [D V] reduced has these pairs, with no
    reference to the algorithm *)
Theorem C25_any_decomposition :
  forall (K : coeffT) (F C R : ordT) (phi : R -> F) (B : list C) (D : C -> vec K R) (V : C -> vec K C),
  NoDup B -> triangular B V -> reduced phi B (fun j => lincomb B (V j) D) ->
  (forall j, In j B -> vzero (lincomb B (V j) D) \/ exists i, leading phi (lincomb B (V j) D) i) ->
  forall i j, In j B ->
    (leading phi (lincomb B (V j) D) i <-> is_pair phi B D i j) /\
    (vzero (lincomb B (V j) D) <-> is_positive B D j).
Proof.
  intros. split; [apply intrinsic_pair; auto|apply intrinsic_positive with (phi:=phi); auto].
Qed.
Print Assumptions C25_any_decomposition.

(** C26: [read_off_diagram] on any V (not only one computed by the algorithm)
    whose columns are combinations of basis elements *)
Theorem C26_read_off_diagram :
  forall (HI : heaps) (K : coeffT) (C F : ordT) (phi : C -> F) (D : fmatrix K C C F) (b : basis C) (l : list C),
  square_matrix phi D b l ->
  forall (v : kmap C (list (K * C))) (reverse_order : bool),
  (forall c, In c l -> exists col, map_get c v = Some col /\ forall k x, In (k, x) col -> In x l) ->
  let R := mden (product (m_col D) (mapvec_column v)) in
  exists dg, read_off_diagram HI D b v reverse_order = Ok dg /\
    NoDup (essential dg) /\ NoDup (pairings dg) /\
    (forall i j, In (i, j) (pairings dg) <-> In j l /\ leading phi (R j) i) /\
    ((forall i j, In i l -> In (i, j) (pairings dg) -> if reverse_order then before l j i else before l i j) ->
     forall c, In c (essential dg) <-> In c l /\ vzero (R c) /\ forall k, In k l -> ~ leading phi (R k) c) /\
    ((forall i j, In i l -> In (i, j) (pairings dg) -> if reverse_order then before l i j else before l j i) ->
     forall c, In c (essential dg) <-> In c l /\ vzero (R c)).
Proof. exact read_off_general. Qed.
Print Assumptions C26_read_off_diagram.

(** C26: the essential set of the whole pipeline is the intrinsic one when columns contain only
    earlier basis elements and [reverse_order = false] (boundary matrices; reversed coboundary matrices) *)
Theorem C26_essential_intrinsic :
  forall (HI : heaps) (K : coeffT) (C F : ordT) (phi : C -> F) (D : fmatrix K C C F) (b : basis C) (l : list C),
  square_matrix phi D b l ->
  (forall c r, In c l -> mden (m_col D) c r <> f0 -> before l r c) ->
  forall fuel, length (row_set (m_col D) l) < fuel ->
  exists v dg,
    standard_algo_with_diagram HI fuel D b false = Ok (v, dg) /\ NoDup (essential dg) /\
    forall c, In c (essential dg) <-> is_essential phi l (mden (m_col D)) c.
Proof.
  intros HI K C F phi D b l Hsq HU fuel Hf.
  destruct (std_diagram HI Hsq Hf false) as (v & dg & E & _ & _ & N & _ & _ & H & _).
  exists v, dg. split; auto. split; auto. apply H. intros i j _. apply (lower_pairs_before Hsq HU).
Qed.
Print Assumptions C26_essential_intrinsic.

(** ... and when the basis lists whole dimensions and [D] moves to the dimension visited
    before (in the chosen direction): [reverse_order = true] is then right for coboundaries. *)
Theorem C26_essential_intrinsic_blocks :
  forall (HI : heaps) (K : coeffT) (C F : ordT) (phi : C -> F) (D : fmatrix K C C F) (b : basis C) (l : list C),
  square_matrix phi D b l ->
  forall (dim : C -> Z) (deg : Z) (reverse_order : bool),
  graded dim deg l (mden (m_col D)) ->
  (forall r c, In r l -> In c l -> dim r = (dim c + deg)%Z -> if reverse_order then before l c r else before l r c) ->
  forall fuel, length (row_set (m_col D) l) < fuel ->
  exists v dg,
    standard_algo_with_diagram HI fuel D b reverse_order = Ok (v, dg) /\ NoDup (essential dg) /\
    forall c, In c (essential dg) <-> is_essential phi l (mden (m_col D)) c.
Proof.
  intros HI K C F phi D b l Hsq g e ro Hg Hblk fuel Hf.
  destruct (std_diagram HI Hsq Hf ro) as (v & dg & E & _ & _ & N & _ & _ & H & _).
  exists v, dg. split; auto. split; auto. apply H. intros i j Hi Hj Hp. apply Hblk; auto. eapply graded_pairs; eauto.
Qed.
Print Assumptions C26_essential_intrinsic_blocks.

Example C26_ex : (forall c r, In c tri_l -> mden (m_col tri_D) c r <> f0 -> before tri_l r c) /\
  graded tri_dim (-1) tri_l (mden (m_col tri_D)) /\
  exists v, standard_algo_with_diagram list_heaps 7 tri_D tri_b false =
    Ok (v, @Diagram nat_ord [0] [(5, 6); (2, 4); (1, 3)]).
Proof.
  split; [|split; [exact tri_graded|]].
  - intros c r Hc Hn.
    assert (Hx : (is0 (mden (m_col tri_D) c r) || ((r <? c) && (c <? 7)))%bool = true).
    { apply (@entries_check Z3_coeff nat_ord nat_ord (m_col tri_D) tri_l
        (fun c r => is0 (mden (m_col tri_D) c r) || ((r <? c) && (c <? 7)))); auto. }
    apply orb_true_iff in Hx. destruct Hx as [Hx|Hx].
    + exfalso. revert Hn Hx. destruct (mden (m_col tri_D) c r); [discriminate|]. intros H; now destruct H.
    + apply andb_true_iff in Hx. rewrite !Nat.ltb_lt in Hx.
      exists (seq 0 r), (seq (S r) (c - S r)), (seq (S c) (6 - c)).
      change (seq 0 7 = seq 0 r ++ (r :: seq (S r) (c - S r)) ++ (c :: seq (S c) (6 - c))).
      replace 7 with (r + ((S (c - S r)) + (S (6 - c)))) by lia.
      rewrite !seq_app. f_equal. change (r :: seq (S r) (c - S r)) with (seq r (S (c - S r))).
      replace (0 + r) with r by lia. f_equal. replace (r + S (c - S r)) with c by lia. reflexivity.
  - eexists. vm_compute. reflexivity.
Qed.

(** C27: with [D D = 0], [D] homogeneous and each dimension listed in row order, every basis element is exactly
    one of essential / birth of one pair / death of one pair. *)
Theorem C27_partition :
  forall (K : coeffT) (C F : ordT) (phi : C -> F) (D : fmatrix K C C F) (b : basis C) (l : list C),
  square_matrix phi D b l ->
  forall (dim : C -> Z) (deg : Z),
  let Dm := mden (m_col D) in
  complex l Dm -> graded dim deg l Dm -> graded_order phi dim l ->
  forall c, In c l ->
    (is_essential phi l Dm c \/
     (exists j, In j l /\ is_pair phi l Dm c j) \/
     (exists i, In i l /\ is_pair phi l Dm i c)) /\
    ~ (is_essential phi l Dm c /\ exists j, In j l /\ is_pair phi l Dm c j) /\
    ~ (is_essential phi l Dm c /\ exists i, is_pair phi l Dm i c) /\
    ~ ((exists j, In j l /\ is_pair phi l Dm c j) /\ exists i, is_pair phi l Dm i c) /\
    (forall j j', In j l -> In j' l -> is_pair phi l Dm c j -> is_pair phi l Dm c j' -> j = j') /\
    (forall i i', is_pair phi l Dm i c -> is_pair phi l Dm i' c -> i = i').
Proof.
  intros K C F phi D b l Hsq g e.
  exact (@std_partition list_heaps K C F phi D b l Hsq _ (Nat.lt_succ_diag_r _) g e).
Qed.
Print Assumptions C27_partition.

(** C27 for the diagram actually returned *)
Theorem C27_diagram_partition :
  forall (HI : heaps) (K : coeffT) (C F : ordT) (phi : C -> F) (D : fmatrix K C C F) (b : basis C) (l : list C),
  square_matrix phi D b l ->
  forall (dim : C -> Z) (deg : Z),
  let Dm := mden (m_col D) in
  complex l Dm -> graded dim deg l Dm -> graded_order phi dim l ->
  (forall c r, In c l -> Dm c r <> f0 -> before l r c) ->
  forall fuel, length (row_set (m_col D) l) < fuel ->
  exists v dg, standard_algo_with_diagram HI fuel D b false = Ok (v, dg) /\
    NoDup (essential dg ++ map fst (pairings dg) ++ map snd (pairings dg)) /\
    (forall c, In c l <-> In c (essential dg ++ map fst (pairings dg) ++ map snd (pairings dg))).
Proof.
  intros HI K C F phi D b l Hsq g e Dm Hcx Hg Ho HU fuel Hf.
  destruct (std_diagram HI Hsq Hf false) as (v & dg & E & _ & _ & N1 & N2 & Hp & H & _).
  exists v, dg. split; auto.
  assert (He : forall c, In c (essential dg) <-> is_essential phi l Dm c).
  { apply H. intros i j _. apply (lower_pairs_before Hsq HU). }
  pose proof (@C27_partition K C F phi D b l Hsq g e Hcx Hg Ho) as Hpart.
  assert (Hbirth : forall i j, In (i, j) (pairings dg) -> In i l /\ In j l /\ is_pair phi l Dm i j).
  { intros i j Hij. apply Hp in Hij. destruct Hij as [Hj Hij]. split; auto.
    eapply birth_positive; eauto. }
  split.
  - assert (Hdisj : forall (X : Type) (a b : list X), NoDup a -> NoDup b -> (forall x, In x a -> ~ In x b) -> NoDup (a ++ b)).
    { intros X a. induction a as [|x a IH]; intros b' Ha Hb' Hd; simpl; auto. inversion Ha; subst.
      constructor; [rewrite in_app_iff; intros [?|?]; [auto|eapply Hd; simpl; eauto]|].
      apply IH; auto. intros y Hy. apply Hd. simpl; auto. }
    assert (Hmap : forall (f : C * C -> C), (forall p q, In p (pairings dg) -> In q (pairings dg) -> f p = f q -> p = q) ->
      NoDup (map f (pairings dg))).
    { intros f Hf'. clear -N2 Hf'. induction (pairings dg) as [|p t IH]; simpl; constructor; inversion N2; subst.
      - intros Hin. apply in_map_iff in Hin. destruct Hin as (q & Eq & Hq).
        match goal with H : ~ In p t |- _ => apply H end.
        rewrite (Hf' p q); [exact Hq|left; reflexivity|right; exact Hq|auto].
      - apply IH; auto. intros; apply Hf'; simpl; auto. }
    apply Hdisj; auto; [apply Hdisj; [apply Hmap|apply Hmap|]|].
    + intros [i j] [i' j'] Hin Hin'. simpl. intros <-. apply Hbirth in Hin, Hin'. f_equal.
      destruct (Hpart i) as (_ & _ & _ & _ & Hu & _); [tauto|]. apply Hu; tauto.
    + intros [i j] [i' j'] Hin Hin'. simpl. intros <-. apply Hbirth in Hin, Hin'. f_equal.
      destruct (Hpart j) as (_ & _ & _ & _ & _ & Hu); [tauto|]. apply Hu; tauto.
    + intros c H1 H2. apply in_map_iff in H1, H2. destruct H1 as ([c' j] & Ec & H1), H2 as ([i c''] & Ec' & H2).
      simpl in *. subst. apply Hbirth in H1, H2. destruct (Hpart c) as (_ & _ & _ & Hn & _); [tauto|].
      apply Hn. split; [exists j; tauto|exists i; tauto].
    + intros c H1 H2. apply He in H1. apply in_app_iff in H2.
      destruct (Hpart c) as (_ & Hn1 & Hn2 & _); [apply H1|].
      destruct H2 as [H2|H2]; apply in_map_iff in H2; destruct H2 as ([i j] & Ec & H2); simpl in *; subst; apply Hbirth in H2.
      * apply Hn1. split; auto. exists j. tauto.
      * apply Hn2. split; auto. exists i. tauto.
  - intros c. rewrite !in_app_iff, He. split.
    + intros Hc. destruct (Hpart c Hc) as ([H0|[(j & Hj & Hij)|(i & Hi & Hij)]] & _); auto.
      * right. left. apply in_map_iff. exists (c, j). split; auto. apply Hp. auto.
      * right. right. apply in_map_iff. exists (i, c). split; auto. apply Hp. auto.
    + intros [H1|[H1|H1]]; [apply H1| |]; apply in_map_iff in H1; destruct H1 as ([i j] & Ec & H1); simpl in *; subst; apply Hbirth in H1; tauto.
Qed.
Print Assumptions C27_diagram_partition.

Example C27_ex : complex tri_l (mden (m_col tri_D)) /\ graded tri_dim (-1) tri_l (mden (m_col tri_D)) /\
  graded_order (F:=nat_ord) tri_fil tri_dim tri_l.
Proof.
  split; [exact tri_complex|]. split; [exact tri_graded|].
  intros x y Hb _. pose proof (before_in Hb) as [Hx Hy]. apply tri_ordered; auto.
  apply before_split in Hb. destruct Hb as (A & B & E & Hi). change (seq 0 7 = A ++ x :: B) in E.
  assert (EA : A = seq 0 (length A) /\ x :: B = seq (length A) (length (x :: B))).
  { assert (E7 : 7 = length A + length (x :: B)) by (rewrite <- app_length, <- E; reflexivity).
    rewrite E7, seq_app in E. apply app_eq_app in E.
    destruct E as (t & [[E1 E2]|[E1 E2]]); assert (length t = 0) as Ht by
      (apply (f_equal (@length nat)) in E1, E2; rewrite ?app_length, ?seq_length in *; lia);
      destruct t; try discriminate; simpl in *; rewrite app_nil_r in *; auto. }
  destruct EA as [_ EB]. simpl in EB. injection EB as EB1 EB2. rewrite EB2 in Hi. apply in_seq in Hi.
  change (x < y). lia.
Qed.

(** C28: the pairings do not depend on the direction; with the direction opposite to the right one
    the essential set is exactly the set of all cycle-creating elements, paired births included. *)
Theorem C28_wrong_direction :
  forall (HI : heaps) (K : coeffT) (C F : ordT) (phi : C -> F) (D : fmatrix K C C F) (b : basis C) (l : list C),
  square_matrix phi D b l ->
  (forall c r, In c l -> mden (m_col D) c r <> f0 -> before l r c) ->
  forall fuel, length (row_set (m_col D) l) < fuel ->
  exists v dg dg',
    standard_algo_with_diagram HI fuel D b false = Ok (v, dg) /\
    standard_algo_with_diagram HI fuel D b true = Ok (v, dg') /\
    (forall p, In p (pairings dg') <-> In p (pairings dg)) /\
    (forall c, In c (essential dg) <-> is_essential phi l (mden (m_col D)) c) /\
    (forall c, In c (essential dg') <-> In c l /\ is_positive l (mden (m_col D)) c).
Proof.
  intros HI K C F phi D b l Hsq HU fuel Hf.
  destruct (std_diagram HI Hsq Hf false) as (v & dg & E & _ & _ & _ & _ & Hp & H & _).
  destruct (std_diagram HI Hsq Hf true) as (v' & dg' & E' & _ & _ & _ & _ & Hp' & _ & H').
  assert (v' = v).
  { unfold standard_algo_with_diagram in E, E'. apply bind_Ok in E, E'.
    destruct E as (w & Ew & E), E' as (w' & Ew' & E'). apply bind_Ok in E, E'.
    destruct E as (d & _ & [= <- _]), E' as (d' & _ & [= <- _]). congruence. }
  subst v'. exists v, dg, dg'. split; auto. split; auto. split; [|split].
  - intros [i j]. rewrite Hp, Hp'. reflexivity.
  - apply H. intros i j _. apply (lower_pairs_before Hsq HU).
  - apply H'. intros i j _. apply (lower_pairs_before Hsq HU).
Qed.
Print Assumptions C28_wrong_direction.

(** C28 on a concrete matrix: the paired births 1, 2 and 5 stay in the essential set. *)
Example C28_ex : exists v, standard_algo_with_diagram list_heaps 7 tri_D tri_b true =
    Ok (v, @Diagram nat_ord [0; 1; 2; 5] [(1, 3); (2, 4); (5, 6)]).
Proof. eexists. vm_compute. reflexivity. Qed.

(** C29: different heaps (tie-breaking), different term order, duplicated or cancelling terms, an overridden
    or default [column_with_filtration], a different basis object: literally the same V and diagram. *)
Theorem C29_presentation_independent :
  forall (HI HI' : heaps) (K : coeffT) (C F : ordT) (phi : C -> F) (D D' : fmatrix K C C F) (b b' : basis C) (l : list C),
  square_matrix phi D b l -> square_matrix phi D' b' l ->
  (forall c, In c l -> forall r, mden (m_col D) c r = mden (m_col D') c r) ->
  forall fuel fuel' reverse_order,
  length (row_set (m_col D) l) < fuel -> length (row_set (m_col D') l) < fuel' ->
  exists v dg, standard_algo_with_diagram HI fuel D b reverse_order = Ok (v, dg) /\
               standard_algo_with_diagram HI' fuel' D' b' reverse_order = Ok (v, dg).
Proof. exact (fun HI HI' K C F => @standard_with_diagram_det HI HI' K C F). Qed.
Print Assumptions C29_presentation_independent.

(** the same for the algorithm run directly on the (possibly overriding) matrix *)
Theorem C29_standard_algo :
  forall (HI HI' : heaps) (K : coeffT) (C F : ordT) (phi : C -> F) (D D' : fmatrix K C C F) (b b' : basis C) (l : list C),
  square_matrix phi D b l -> square_matrix phi D' b' l ->
  (forall c, In c l -> forall r, mden (m_col D) c r = mden (m_col D') c r) ->
  forall fuel fuel',
  length (row_set (m_col D) l) < fuel -> length (row_set (m_col D') l) < fuel' ->
  exists v, standard_algo HI fuel D b = Ok v /\ standard_algo HI' fuel' D' b' = Ok v.
Proof.
  intros HI HI' K C F phi D D' b b' l (H1 & H2 & H3) (_ & H2' & H3') Heq fuel fuel'.
  exact (@standard_algo_det HI HI' K C F phi D D' b b' l H1 H2 H2' H3 H3' Heq fuel fuel').
Qed.
Print Assumptions C29_standard_algo.

(** a differently presented triangle meets the hypotheses *)
Definition tri_cols' : list (list (Z3_coeff * nat_ord)) :=
  [ []; [(a1, 5); (a2, 5)]; []; [(a1, 1); (a1, 0); (a1, 0)]; [(a1, 2); (a2, 0)];
    [(a2, 1); (a1, 2)]; [(a1, 5); (a1, 3); (a2, 4)] ].
Definition tri_D' : fmatrix Z3_coeff nat_ord nat_ord nat_ord :=
  with_filtration (F:=nat_ord) (vecvec_column tri_cols') (fun r => Ok (tri_fil r)).
Example C29_ex : square_matrix tri_fil tri_D' tri_b tri_l /\ (tri_cols' <> tri_cols) /\
  (forall c, In c tri_l -> forall r, mden (m_col tri_D) c r = mden (m_col tri_D') c r).
Proof.
  split; [|split; [discriminate|]].
  - split; [apply seq_NoDup|]. split; [apply (standard_basis_enum 7)|].
    intros c Hc. apply in_seq in Hc.
    do 7 (destruct c as [|c]; [eapply with_filtration_coherent; reflexivity|]). lia.
  - intros c Hc r. apply in_seq in Hc.
    do 7 (destruct c as [|c]; [do 6 (destruct r as [|r]; [vm_compute; f_equal; apply zp_eq; reflexivity || reflexivity|]); vm_compute; reflexivity|]). lia.
Qed.
