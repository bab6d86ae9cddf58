(** Two presentations of the same matrix give literally the same results. *)
From Verif Require Import Base Fields Spec LinAlg Columns ColumnsFacts Matrices SpecMat MatricesFacts Reduction LoopProofs StandardProofs ReadOffProofs StandardResults.
From Coq Require Import Ring Field Sorted.
Set Implicit Arguments.

Lemma gen_loop_mono HI {K : coeffT} {C F : ordT} fR fV (low : @low_map K C) n m : n <= m ->
  forall (r : bhcol HI F C K) v x,
  gen_loop HI n fR fV low r v = Ok x -> gen_loop HI m fR fV low r v = Ok x.
Proof.
  revert m. induction n as [|n IH]; intros m Hm r v x; [discriminate|].
  destruct m as [|m]; [lia|]. simpl.
  destruct (clone_pivot r) as [[o r1]| |]; simpl; auto. destruct o as [p|]; auto.
  destruct (map_get (e_row p) low) as [[j k]|]; auto.
  destruct (fR j); simpl; auto. destruct (fV j); simpl; auto. apply IH. lia.
Qed.

Section Det.
  Variables (HI HI' : heaps).
  Context {K : coeffT} {C F : ordT}.
  Variables (phi : C -> F) (D D' : fmatrix K C C F) (b b' : basis C) (l : list C).
  Hypothesis Hl : NoDup l.
  Hypothesis Hb : enumerates b l.
  Hypothesis Hb' : enumerates b' l.
  Hypothesis HD : forall c, In c l -> coherent_at phi D c.
  Hypothesis HD' : forall c, In c l -> coherent_at phi D' c.
  Hypothesis Heq : forall c, In c l -> forall r, mden (m_col D) c r = mden (m_col D') c r.

  Lemma rd_same v j r : rd D l v j r = rd D' l v j r.
  Proof. unfold rd. apply lincomb_ext; auto. Qed.

  Lemma std_inv_same P st : std_inv phi D l P st -> std_inv phi D' l P st.
  Proof.
    destruct st as [v low]. intros (I1 & I1' & I2). split; auto. split; auto.
    intros i j k. rewrite I2. rewrite rd_same. split; intros (H1 & H2 & H3); split; auto; split; auto;
    eapply leading_ext; try exact H2; intros r; rewrite rd_same; auto.
  Qed.

  Lemma standard_step_det fuel fuel' P c P2 st st1 st1' :
    l = P ++ c :: P2 -> length (row_set (m_col D) l) < fuel -> length (row_set (m_col D') l) < fuel' ->
    std_inv phi D l P st ->
    standard_step HI fuel D b st (length P) = Ok st1 -> standard_step HI' fuel' D' b' st (length P) = Ok st1' ->
    st1 = st1'.
  Proof.
    destruct st as [v low]. intros El Hf Hf' Hinv.
    assert (Hcl : In c l) by (rewrite El; apply in_app_iff; simpl; auto).
    assert (HPl : incl P l) by (rewrite El; intros x Hx; apply in_app_iff; auto).
    unfold standard_step.
    assert (Ee : b_elem b (length P) = Ok c).
    { apply Hb. rewrite El. rewrite nth_error_app2, Nat.sub_diag; auto. }
    assert (Ee' : b_elem b' (length P) = Ok c).
    { apply Hb'. rewrite El. rewrite nth_error_app2, Nat.sub_diag; auto. }
    rewrite Ee, Ee'. cbn [bind].
    destruct (build_bhcol_spec HI (HD _ Hcl)) as (r0 & E0 & Wr0 & Dr0). rewrite E0. cbn [bind].
    destruct (build_bhcol_spec HI' (HD' _ Hcl)) as (r0' & E0' & Wr0' & Dr0'). rewrite E0'. cbn [bind].
    rewrite !standard_loop_gen.
    set (v0 := add_tuple (empty_bhcol HI unit_ord C K) (k_one, c, tt)).
    set (v0' := add_tuple (empty_bhcol HI' unit_ord C K) (k_one, c, tt)).
    intros E1 E2.
    apply bind_Ok in E1. destruct E1 as ([r1 v1] & G1 & E1).
    apply bind_Ok in E2. destruct E2 as ([r2 v2] & G2 & E2).
    apply (@gen_loop_mono _ _ _ _ _ _ _ _ (max fuel fuel') (Nat.le_max_l _ _)) in G1.
    apply (@gen_loop_mono _ _ _ _ _ _ _ _ (max fuel fuel') (Nat.le_max_r _ _)) in G2.
    pose proof (@gen_loop_sim HI HI' K C F phi
        (m_colf (product_f (by_ref D) (mapvec_column v))) (m_colf (product_f (by_ref D') (mapvec_column v)))
        (m_colf (with_trivial_filtration (mapvec_column v))) (m_colf (with_trivial_filtration (mapvec_column v)))
        low) as Hsim.
    assert (Hsr : @sim_res HI HI' K C F phi (Ok (r1, v1)) (Ok (r2, v2))).
    { rewrite <- G1, <- G2. apply Hsim; auto.
      - intros i j k Hg. destruct Hinv as (I1 & I1' & I2). apply I2 in Hg. destruct Hg as (Hj & _).
        destruct (I1 j Hj) as (lv & Hg & Hv).
        destruct (@fetch_ok K C F phi D l Hl HD v P j lv HPl Hg Hv) as [(es & F1 & F2 & F3) (vs & F4 & F5 & F6)].
        destruct (@fetch_ok K C F phi D' l Hl HD' v P j lv HPl Hg Hv) as [(es' & F1' & F2' & F3') _].
        split.
        + exists es, es'. refine (conj F1 (conj F1' (conj F2 (conj F2' _)))). intros r. rewrite F3, F3'. apply rd_same.
        + exists vs, vs. auto.
      - apply wfc_add_entry; [apply wfc_empty|reflexivity].
      - apply wfc_add_entry; [apply wfc_empty|reflexivity].
      - intros x. rewrite Dr0, Dr0'. auto.
      - intros x. unfold v0, v0', add_tuple. rewrite !den_add_entry, !den_empty. reflexivity. }
    destruct Hsr as (W1 & W2 & X1 & X2 & Er & Ev & _).
    destruct (pop_pivot_det W1 W2 Er) as (o & h1 & h1' & Q1 & Q2 & _).
    destruct (drain_sorted_det X1 X2 Ev) as (es & d1 & d1' & Q3 & Q4).
    rewrite Q1 in E1. rewrite Q2 in E2. cbn [bind] in E1, E2.
    rewrite Q3 in E1. rewrite Q4 in E2. cbn [bind] in E1, E2. congruence.
  Qed.

  Lemma standard_fold_det fuel fuel' P2 : forall P st st1 st1',
    l = P ++ P2 -> length (row_set (m_col D) l) < fuel -> length (row_set (m_col D') l) < fuel' ->
    std_inv phi D l P st ->
    foldM (standard_step HI fuel D b) (seq (length P) (length P2)) st = Ok st1 ->
    foldM (standard_step HI' fuel' D' b') (seq (length P) (length P2)) st = Ok st1' ->
    st1 = st1'.
  Proof.
    induction P2 as [|c P2 IH]; intros P st st1 st1' El Hf Hf' Hinv; simpl; [congruence|].
    intros E1 E2. apply bind_Ok in E1, E2. destruct E1 as (s1 & A1 & E1), E2 as (s2 & A2 & E2).
    pose proof (standard_step_det _ _ _ _ El Hf Hf' Hinv A1 A2) as Es. subst s2.
    destruct (@standard_step_spec HI K C F phi D b l Hl Hb HD fuel P c P2 st El Hf Hinv) as (s3 & A3 & Hinv3 & _).
    assert (s3 = s1) by congruence. subst s3.
    apply (IH (P ++ [c]) s1 st1 st1'); auto.
    - now rewrite <- app_assoc.
    - rewrite app_length. simpl. rewrite Nat.add_comm. exact E1.
    - rewrite app_length. simpl. rewrite Nat.add_comm. exact E2.
  Qed.

  Theorem standard_algo_det fuel fuel' :
    length (row_set (m_col D) l) < fuel -> length (row_set (m_col D') l) < fuel' ->
    exists v, standard_algo HI fuel D b = Ok v /\ standard_algo HI' fuel' D' b' = Ok v.
  Proof.
    intros Hf Hf'. 
    destruct (@standard_algo_inv HI K C F phi D b l Hl Hb HD fuel Hf) as (v & low & E & Hinv).
    destruct (@standard_algo_inv HI' K C F phi D' b' l Hl Hb' HD' fuel' Hf') as (v' & low' & E' & Hinv').
    exists v. split; auto. rewrite E'. f_equal.
    unfold standard_algo in E, E'. destruct Hb as [Hs _], Hb' as [Hs' _]. rewrite Hs in E. rewrite Hs' in E'.
    apply bind_Ok in E, E'. destruct E as ([v1 l1] & E & [= ->]), E' as ([v2 l2] & E' & [= ->]).
    assert ((v, l1) = (v', l2)); [|congruence].
    eapply (@standard_fold_det fuel fuel' l [] ([], [])); eauto. apply std_inv_nil.
  Qed.

  Lemma read_step_det v : (forall c, In c l -> exists lv, map_get c v = Some lv /\ forall k x, In (k, x) lv -> In x l) ->
    forall i c dg, nth_error l i = Some c ->
    exists dg', read_off_step HI (product_f (by_ref D) (mapvec_column v)) b dg i = Ok dg' /\
                read_off_step HI' (product_f (by_ref D') (mapvec_column v)) b' dg i = Ok dg'.
  Proof.
    intros Hv i c dg Hn.
    destruct (@read_off_step_spec HI K C F phi D b l Hl Hb HD v Hv dg i c Hn) as (d1 & E1 & H1).
    destruct (@read_off_step_spec HI' K C F phi D' b' l Hl Hb' HD' v Hv dg i c Hn) as (d2 & E2 & H2).
    exists d1. split; auto. rewrite E2. f_equal.
    assert (HL : forall x, leading phi (rd D' l v c) x -> leading phi (rd D l v c) x).
    { intros x. apply leading_ext. intros r. now rewrite rd_same. }
    destruct H1 as [[Hz ->]|(x & Hx & ->)], H2 as [[Hz' ->]|(x' & Hx' & ->)]; auto.
    - exfalso. eapply leading_not_zero; [apply HL; exact Hx'|exact Hz].
    - exfalso. eapply leading_not_zero; [exact Hx|]. intros r. rewrite rd_same. apply Hz'.
    - rewrite (leading_unique Hx (HL _ Hx')). reflexivity.
  Qed.

  Theorem read_off_det v rev_order :
    (forall c, In c l -> exists lv, map_get c v = Some lv /\ forall k x, In (k, x) lv -> In x l) ->
    exists dg, read_off_diagram HI D b v rev_order = Ok dg /\ read_off_diagram HI' D' b' v rev_order = Ok dg.
  Proof.
    intros Hv. unfold read_off_diagram. destruct Hb as [Hs _], Hb' as [Hs' _]. rewrite Hs, Hs'.
    assert (Hall : forall is dg, (forall i, In i is -> i < length l) ->
      exists dg', foldM (read_off_step HI (product_f (by_ref D) (mapvec_column v)) b) is dg = Ok dg' /\
                  foldM (read_off_step HI' (product_f (by_ref D') (mapvec_column v)) b') is dg = Ok dg').
    { induction is as [|i is IH]; intros dg Hi; simpl; [eauto|].
      destruct (nth_error l i) as [c|] eqn:En.
      - destruct (@read_step_det v Hv i c dg En) as (d1 & -> & ->). cbn [bind]. apply IH. intros; apply Hi; simpl; auto.
      - apply nth_error_None in En. specialize (Hi i (or_introl eq_refl)). lia. }
    destruct rev_order; apply Hall; intros i Hi; [apply in_rev in Hi|]; apply in_seq in Hi; lia.
  Qed.
End Det.

Theorem standard_with_diagram_det (HI HI' : heaps) {K : coeffT} {C F : ordT} (phi : C -> F) (D D' : fmatrix K C C F) (b b' : basis C) (l : list C) :
  square_matrix phi D b l -> square_matrix phi D' b' l ->
  (forall c, In c l -> forall r, mden (m_col D) c r = mden (m_col D') c r) ->
  forall fuel fuel' rev_order,
  length (row_set (m_col D) l) < fuel -> length (row_set (m_col D') l) < fuel' ->
  exists v dg, standard_algo_with_diagram HI fuel D b rev_order = Ok (v, dg) /\
               standard_algo_with_diagram HI' fuel' D' b' rev_order = Ok (v, dg).
Proof.
  intros Hsq Hsq' Heq fuel fuel' ro Hf Hf'.
  destruct (square_by_ref Hsq) as (H1 & H2 & H3). destruct (square_by_ref Hsq') as (_ & H2' & H3').
  destruct (@standard_algo_det HI HI' K C F phi (by_ref D) (by_ref D') b b' l H1 H2 H2' H3 H3' Heq fuel fuel' Hf Hf') as (v & E1 & E2).
  unfold standard_algo_with_diagram. rewrite E1, E2. cbn [bind].
  destruct (@read_off_det HI HI' K C F phi (by_ref D) (by_ref D') b b' l H1 H2 H2' H3 H3' Heq v ro) as (dg & E3 & E4).
  - exact (std_support HI (square_by_ref Hsq) Hf E1).
  - exists v, dg. rewrite E3, E4. auto.
Qed.
