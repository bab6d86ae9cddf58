(** The clearing algorithm returns literally the same table of columns and the same diagram for two presentations of the same matrix. *)
From Verif Require Import Base Fields Spec LinAlg Columns ColumnsFacts Matrices SpecMat MatricesFacts Reduction LoopProofs StandardProofs ReadOffProofs Graded ClearingProofs ClearingOrder Determinism.
From Coq Require Import Ring Field Sorted Lia.
Set Implicit Arguments.

Section Det.
  Variables (HI HI' : heaps).
  Context {K : coeffT} {C F : ordT}.
  Add Field KFD : (F_field K).
  Variables (g g' : C -> Z) (e e' : Z) (phi : C -> F) (D D' : fmatrix K C C F) (sb sb' : split_basis C) (dims dims' : list nat) (blocks : list (list C)).
  Hypothesis HB : graded_blocks g e phi D sb dims blocks.
  Hypothesis HB' : graded_blocks g' e' phi D' sb' dims' blocks.
  Let l := concat blocks.
  Hypothesis Heq : forall c, In c l -> forall r, mden (m_col D) c r = mden (m_col D') c r.

  Notation rden := (ord_rden D blocks).
  Notation rden' := (ord_rden D' blocks).

  Lemma cd_lincomb (x y : vec K C) r : (forall c, In c l -> x c = y c) -> lincomb l x (mden (m_col D)) r = lincomb l y (mden (m_col D')) r.
  Proof. intros H. apply lincomb_ext; auto. Qed.

  Lemma cd_reduced (rc : @rc_map K C) j t x : map_get j rc = Some (Reduced t) -> vden D rc j x = vden D' rc j x.
  Proof.
    intros E. rewrite (o_vden (D:=D) (rc:=rc) (c:=j) (lv:=t ++ [(k_one, j)]) x), (o_vden (D:=D') (rc:=rc) (c:=j) (lv:=t ++ [(k_one, j)]) x); auto; left; eauto.
  Qed.

  Lemma cd_rden_reduced (rc : @rc_map K C) j t r : map_get j rc = Some (Reduced t) -> rden rc j r = rden' rc j r.
  Proof. intros E. apply cd_lincomb. intros c _. eapply cd_reduced; eauto. Qed.

  Lemma cd_vden pre P bd j x : incl (concat pre ++ P) l ->
    oinv phi D blocks pre P bd -> oinv phi D' blocks pre P bd -> In j (concat pre ++ P) ->
    vden D (bd_rc bd) j x = vden D' (bd_rc bd) j x.
  Proof.
    intros Hdl G G' Hj. pose proof (Hdl _ Hj) as Hjl. apply in_concat in Hjl. destruct Hjl as (bk & Hbk & Hjb).
    destruct (map_get j (bd_rc bd)) as [[k|t]|] eqn:Eg.
    - destruct G as (G1 & G2 & G3 & _). destruct G' as (G1' & G2' & _).
      destruct (G3 _ _ Eg) as (t & Et). destruct (proj1 (G2 _ _) Eg) as [Hk Hlead]. destruct (proj1 (G2' _ _) Eg) as [_ Hlead'].
      pose proof (Hdl _ Hk) as Hkl. apply in_concat in Hkl. destruct Hkl as (bk2 & Hbk2 & Hkb).
      destruct (G1 bk2 k Hbk2 Hkb Hk) as (lk & Hv & Hok). destruct (G1' bk2 k Hbk2 Hkb Hk) as (lk' & Hv' & Hok').
      destruct (o_cleared HB bk Hbk2 Hkb Hbk Hjb Eg Et) as (lv & _ & _ & _ & H1); auto.
      { intros lv' Hv2. assert (lv' = lk) by (apply vcol_crm in Hv2, Hv; congruence). now subst. }
      destruct (o_cleared HB' bk Hbk2 Hkb Hbk Hjb Eg Et) as (lv' & _ & _ & _ & H1'); auto.
      { intros lv' Hv2. assert (lv' = lk') by (apply vcol_crm in Hv2, Hv'; congruence). now subst. }
      rewrite H1, H1'. eapply cd_rden_reduced; eauto.
    - eapply cd_reduced; eauto.
    - exfalso. destruct G as (_ & _ & _ & _ & G5 & _). eapply G5; eauto.
  Qed.
  Lemma cd_rden pre P bd j r : incl (concat pre ++ P) l ->
    oinv phi D blocks pre P bd -> oinv phi D' blocks pre P bd -> In j (concat pre ++ P) ->
    rden (bd_rc bd) j r = rden' (bd_rc bd) j r.
  Proof. intros Hdl G G' Hj. apply cd_lincomb. intros c _. eapply cd_vden; eauto. Qed.

  Lemma cd_step fuel fuel' pre blk post P c P2 bd low sub sub' st1 st1' :
    blocks = pre ++ blk :: post -> blk = P ++ c :: P2 -> enumerates sub blk -> enumerates sub' blk ->
    oinv phi D blocks pre P bd -> oinv phi D' blocks pre P bd -> olow phi D blocks P (bd_rc bd) low ->
    clear_step HI fuel D sub (bd, low) (length P) = Ok st1 -> clear_step HI' fuel' D' sub' (bd, low) (length P) = Ok st1' ->
    st1 = st1'.
  Proof.
    intros E Eb Hen Hen' G G' HL. unfold clear_step.
    assert (Hblk : In blk blocks) by (rewrite E; apply in_app_iff; simpl; auto).
    assert (Ee : b_elem sub (length P) = Ok c) by (apply Hen; rewrite Eb, nth_error_app2, Nat.sub_diag; auto).
    assert (Ee' : b_elem sub' (length P) = Ok c) by (apply Hen'; rewrite Eb, nth_error_app2, Nat.sub_diag; auto).
    rewrite Ee, Ee'. cbn [bind]. destruct (map_mem c (bd_rc bd)); [congruence|].
    assert (Hcb : In c blk) by (rewrite Eb; apply in_app_iff; simpl; auto).
    assert (Hcl : In c l) by (apply in_concat; eauto).
    assert (HPb : incl P blk) by (rewrite Eb; intros x Hx; apply in_app_iff; auto).
    assert (Hdl : incl (concat pre ++ P) l).
    { intros x Hx. unfold l. rewrite E, concat_app. simpl. rewrite Eb, !in_app_iff. rewrite in_app_iff in Hx. tauto. }
    assert (Hc : coherent_at phi D c) by (apply HB; auto).
    assert (Hc' : coherent_at phi D' c) by (apply HB'; auto).
    destruct (build_bhcol_spec HI Hc) as (r0 & E0 & Wr0 & Dr0). rewrite E0. cbn [bind].
    destruct (build_bhcol_spec HI' Hc') as (r0' & E0' & Wr0' & Dr0'). rewrite E0'. cbn [bind].
    rewrite !reduce_column_gen. intros E1 E2.
    apply bind_Ok in E1. destruct E1 as ([r1 v1] & Q1 & E1).
    apply bind_Ok in E2. destruct E2 as ([r2 v2] & Q2 & E2).
    apply (@gen_loop_mono _ _ _ _ _ _ _ _ (max fuel fuel') (Nat.le_max_l _ _)) in Q1.
    apply (@gen_loop_mono _ _ _ _ _ _ _ _ (max fuel fuel') (Nat.le_max_r _ _)) in Q2.
    assert (Hsr : @sim_res HI HI' K C F phi (Ok (r1, v1)) (Ok (r2, v2))).
    { rewrite <- Q1, <- Q2. apply gen_loop_sim; auto.
      - intros i j k Hg. apply HL in Hg. destruct Hg as (Hj & _).
        assert (Hjd : In j (concat pre ++ P)) by (apply in_app_iff; auto).
        destruct (proj1 G blk j Hblk (HPb _ Hj) Hjd) as (lv & Hv & Hok).
        destruct (proj1 G' blk j Hblk (HPb _ Hj) Hjd) as (lv' & Hv' & Hok').
        destruct (o_fetch HB Hblk Hv Hok) as [(es & F1 & F2 & F3) (vs & F4 & F5 & F6)].
        destruct (o_fetch HB' Hblk Hv' Hok') as [(es' & F1' & F2' & F3') (vs' & F4' & F5' & F6')].
        split.
        + exists es, es'. refine (conj F1 (conj F1' (conj F2 (conj F2' _)))). intros r. rewrite F3, F3'. eapply cd_rden; eauto.
        + exists vs, vs'. refine (conj F4 (conj F4' (conj F5 (conj F5' _)))). intros r. rewrite F6, F6'. eapply cd_vden; eauto.
      - apply wfc_empty.
      - apply wfc_empty.
      - intros x. rewrite Dr0, Dr0'. auto.
      - intros x. rewrite !den_empty. reflexivity. }
    destruct Hsr as (W1 & W2 & X1 & X2 & Er & Ev & Epk).
    destruct (drain_sorted_det X1 X2 Ev) as (es & d1 & d1' & Q3 & Q4).
    unfold save_column in E1, E2. rewrite Epk in E1. rewrite Q3 in E1. rewrite Q4 in E2. cbn [bind] in E1, E2.
    destruct (peek_pivot r2); cbn [bind] in E1, E2; congruence.
  Qed.

  Lemma cd_fold fuel fuel' pre blk post sub sub' : blocks = pre ++ blk :: post -> enumerates sub blk -> enumerates sub' blk ->
    length (row_set (m_col D) l) < fuel -> length (row_set (m_col D') l) < fuel' ->
    forall P2 P bd low, blk = P ++ P2 -> oinv phi D blocks pre P bd -> oinv phi D' blocks pre P bd ->
      olow phi D blocks P (bd_rc bd) low -> olow phi D' blocks P (bd_rc bd) low ->
    foldM (clear_step HI fuel D sub) (seq (length P) (length P2)) (bd, low) =
    foldM (clear_step HI' fuel' D' sub') (seq (length P) (length P2)) (bd, low).
  Proof.
    intros E Hen Hen' Hf Hf'. induction P2 as [|c P2 IH]; intros P bd low Eb G G' HL HL'; cbn [length seq foldM]; auto.
    destruct (@o_step HI K C F g e phi D sb dims blocks HB fuel pre blk post P c P2 bd low sub E Eb Hen Hf G HL) as (bd1 & low1 & E1 & G1 & HL1).
    destruct (@o_step HI' K C F g' e' phi D' sb' dims' blocks HB' fuel' pre blk post P c P2 bd low sub' E Eb Hen' Hf' G' HL') as (bd2 & low2 & E2 & G2 & HL2).
    pose proof (cd_step fuel fuel' post c P2 E Eb Hen Hen' G G' HL E1 E2) as Es. injection Es as <- <-.
    rewrite E1, E2. cbn [bind]. specialize (IH (P ++ [c]) bd1 low1). rewrite app_length in IH. simpl length in IH. rewrite Nat.add_comm in IH.
    apply IH; auto. now rewrite <- app_assoc.
  Qed.

  Lemma cd_dims fuel fuel' : length (row_set (m_col D) l) < fuel -> length (row_set (m_col D') l) < fuel' ->
    forall post ds ds' pre bd, blocks = pre ++ post ->
    Forall2 (fun d blk => exists sub, sb_dim sb d = Ok sub /\ enumerates sub blk) ds post ->
    Forall2 (fun d blk => exists sub, sb_dim sb' d = Ok sub /\ enumerates sub blk) ds' post ->
    oinv phi D blocks pre [] bd -> oinv phi D' blocks pre [] bd ->
    foldM (reduce_dimension HI fuel D sb) ds bd = foldM (reduce_dimension HI' fuel' D' sb') ds' bd.
  Proof.
    intros Hf Hf'. induction post as [|blk post IH]; intros ds ds' pre bd E H H' G G'.
    { inversion H; inversion H'. reflexivity. }
    inversion H as [|x ? l0 ? (sub & Es & Hen) HR Ex Ey]. inversion H' as [|x0 ? l1 ? (sub' & Es' & Hen') HR' Ex' Ey']. cbn [foldM]. clear Ex Ey Ex' Ey' H H'.
    destruct (@o_reduce HI K C F g e phi D sb dims blocks HB fuel pre blk post x sub bd E Es Hen Hf G) as (bd1 & E1 & G1).
    destruct (@o_reduce HI' K C F g' e' phi D' sb' dims' blocks HB' fuel' pre blk post x0 sub' bd E Es' Hen' Hf' G') as (bd2 & E2 & G2).
    assert (Eb : bd1 = bd2).
    { assert (Hz : reduce_dimension HI fuel D sb bd x = reduce_dimension HI' fuel' D' sb' bd x0); [|congruence].
      unfold reduce_dimension. rewrite Es, Es'. cbn [bind]. rewrite (proj1 Hen), (proj1 Hen').
      pose proof (@cd_fold fuel fuel' pre blk post sub sub' E Hen Hen' Hf Hf' blk [] bd [] eq_refl G G') as Hz. cbn [length] in Hz.
      match goal with |- bind ?m ?f = bind ?m' ?f' => change f' with f; assert (Em : m = m'); [|now rewrite Em] end.
      apply Hz; intros i j k; simpl; (split; [discriminate|tauto]). }
    subst bd2. rewrite E1, E2. cbn [bind]. apply (IH l0 l1 (pre ++ [blk])); auto. now rewrite <- app_assoc.
  Qed.

  Theorem clearing_det fuel fuel' : length (row_set (m_col D) l) < fuel -> length (row_set (m_col D') l) < fuel' ->
    build_with_diagram HI fuel D sb dims = build_with_diagram HI' fuel' D' sb' dims'.
  Proof.
    intros Hf Hf'. unfold build_with_diagram. rewrite (@cd_dims fuel fuel' Hf Hf' blocks dims dims' []); auto; try apply o_init; [apply HB|apply HB'].
  Qed.
End Det.
