(** Property theorems C70: reducing the Rips boundary matrix, by either algorithm, computes the persistent homology of the skeleton. *)
From Verif Require Import Base Fields FieldsFacts Spec LinAlg Columns ColumnsFacts Matrices SpecMat MatricesFacts Reduction LoopProofs StandardProofs ReadOffProofs Graded StandardResults ClearingProofs PropMatrices PropStandard PropClearing Duality PropDuality Rips SpecRips RipsCode RipsFacts RipsBasis PropRips RipsComplex RipsCohomology PropRipsCohomology SpecPH Persistence BettiUnique PropPersistence RipsPersistence PropRipsPersistence PropRipsCli.
From Coq Require Import Ring Field Permutation Sorted Lia.
Set Implicit Arguments.

(** ** Betti numbers depend on the cells, their times, degrees and columns only *)
Section Same.
  Context {K : coeffT} {F C : ordT} (phi phi' : C -> F) (g g' : C -> Z) (e : Z) (l l' : list C) (D D' : C -> vec K C).
  Hypothesis Hl : NoDup l.
  Hypothesis Hl' : NoDup l'.
  Hypothesis Hin : forall c, In c l <-> In c l'.
  Hypothesis Hc : forall c, In c l -> phi c = phi' c /\ g c = g' c /\ forall r, D c r = D' c r.
  Lemma same_chain n t (z : vec K C) : chain_at phi g l n t z -> chain_at phi' g' l' n t z.
  Proof. intros H c Hz. destruct (H c Hz) as (H1 & H2 & H3). destruct (Hc c H1) as (E1 & E2 & _). split; [now apply Hin|]. now rewrite <- E1, <- E2. Qed.
  Lemma same_bdry (z : vec K C) r : bdry l D z r = bdry l' D' z r.
  Proof.
    unfold bdry. rewrite (lincomb_ext l z z D D' r); auto; [|intros c H; apply Hc; auto].
    apply lincomb_incl; auto; [intros c H; now apply Hin|]. intros c H1 H2. exfalso. apply H2. now apply Hin.
  Qed.
  Lemma same_cycle n t (z : vec K C) : cycle_at phi g l D n t z -> cycle_at phi' g' l' D' n t z.
  Proof. intros [H1 H2]. split; [now apply same_chain|]. intros r. now rewrite <- same_bdry. Qed.
  Lemma same_boundary n t (z : vec K C) : boundary_at phi g e l D n t z -> boundary_at phi' g' e l' D' n t z.
  Proof. intros (w & H1 & H2). exists w. split; [now apply same_chain|]. intros r. now rewrite <- same_bdry. Qed.
End Same.
Lemma same_betti {K : coeffT} {F C : ordT} (phi phi' : C -> F) (g g' : C -> Z) (e : Z) (l l' : list C) (D D' : C -> vec K C) n s t k :
  NoDup l -> NoDup l' -> (forall c, In c l <-> In c l') -> (forall c, In c l -> phi c = phi' c /\ g c = g' c /\ forall r, D c r = D' c r) ->
  persistent_betti phi g e l D n s t k -> persistent_betti phi' g' e l' D' n s t k.
Proof.
  intros H1 H2 H3 H4 (I & bars & Z & (A1 & A2 & A3 & A4) & A5).
  assert (H3' : forall c, In c l' <-> In c l) by (intros; symmetry; auto).
  assert (H4' : forall c, In c l' -> phi' c = phi c /\ g' c = g c /\ forall r, D' c r = D c r) by (intros c Hc; apply H3' in Hc; destruct (H4 c Hc) as (-> & -> & H); auto).
  exists I, bars, Z. split; auto. split; auto. split; [|split].
  - intros b Hb. eapply (@same_cycle K F C phi phi' g g' l l' D D'); eauto.
  - intros z Hz. destruct (A3 z) as (a & Ha); [eapply (@same_cycle K F C phi' phi g' g l' l D' D); eauto|]. exists a. eapply (@same_boundary K F C phi phi' g g' e l l' D D'); eauto.
  - intros a Ha. apply A4. eapply (@same_boundary K F C phi' phi g' g e l' l D' D); eauto.
Qed.

Section Homology.
  Context {K : coeffT} {F : ordT} (uw : N) (z : F) (d : list (list F)) (m : nat).
  Notation n := (length d).
  Hypothesis Hd : rips_matrix z d.
  Hypothesis Hm : 1 <= m.
  Hypothesis Hfit : codes_fit uw n (m + 2).
  Variable phi : N -> F.
  Hypothesis Hphi : rips_filtration z d phi.
  Notation l := (all_cells z d m : list rips_index).
  Notation B := (BD (K:=K) uw d (tb z d m)).
  Notation BDm := (mden (m_col B)).
  Definition hblocks : list (list rips_index) := map (fun k => cells z d m k : list rips_index) (rev (seq 0 (m + 1))).
  Lemma BD_spec (D : N_ord -> vec K N_ord) c r : rips_boundary_matrix n D -> In c l -> BDm c r = D c r.
  Proof.
    intros HD Hc. apply l_cells in Hc; auto. destruct Hc as (t & Ht & Hlt & ->).
    destruct (fscalar_dec (BDm (code n t) r)) as [E|Hn].
    - destruct (fscalar_dec (D (code n t) r)) as [E'|Hn']; [congruence|]. exfalso. apply HD in Hn'; auto. destruct Hn' as (s & i & Hs & Hf & ->).
      rewrite (BD_den d Hm Hfit) in E by auto. assert (En : D (code n t) (code n s) = inc t s) by now apply sb_inc. rewrite E in En.
      destruct HD as [D1 D2]. rewrite (D1 s t i Hs Ht Hf) in En. unfold sign in En. pose proof (F_1_neq_0 (F_field K)) as H10. destruct (Nat.even i); [auto|].
      apply H10. transitivity (fopp (fopp f1) : option K); [symmetry; apply (Ropp_opp (Eqsth _) (Eq_ext _ _ _) (F_R (F_field K)))|]. rewrite En. apply (ARopp_zero (Eqsth _) (Eq_ext _ _ _) (Rth_ARth (Eqsth _) (Eq_ext _ _ _) (F_R (F_field K)))).
    - apply (BD_den_nz d Hm Hfit) in Hn; auto. destruct Hn as (s & i & Hs & Hf & ->). rewrite (BD_den d Hm Hfit) by auto. symmetry. now apply sb_inc.
  Qed.
  Lemma lists_l : lists_simplices n (m + 1) l.
  Proof. split; [apply all_cells_nodup; auto|]. intros c. apply l_cells; auto. Qed.
  Lemma BD_complex : complex l BDm.
  Proof.
    destruct (@spec_exists K F z d Hd) as (_ & HD & _). destruct (sb_complex HD lists_l) as [C1 C2]. split.
    - intros c r Hc. rewrite (BD_spec c r HD Hc). now apply C1.
    - intros c Hc r. rewrite <- (C2 c Hc r). apply lincomb_ext; intros b Hb; now apply BD_spec.
  Qed.
  Lemma hblocks_in c : In c (concat hblocks) <-> In c l.
  Proof.
    unfold hblocks, all_cells. rewrite !in_concat. split; intros (bk & Hb & Hc); exists bk; (split; [|exact Hc]); apply in_map_iff in Hb; destruct Hb as (k & <- & Hk);
      apply (in_map (fun k => cells z d m k)); [apply in_rev|rewrite <- in_rev]; exact Hk.
  Qed.
  Lemma hsub k : k <= m -> exists sub, sb_dim (rips_split (rbases z d m)) k = Ok sub /\ enumerates sub (cells z d m k).
  Proof.
    intros Hk. destruct (@C39_rips_basis F (rbases z d m)) as (_ & _ & H3 & _). apply (H3 k (sorted_basis z d m k)).
    unfold rbases. rewrite nth_error_map. rewrite (nth_error_nth' _ 0) by (rewrite seq_length; lia). rewrite seq_nth by lia. reflexivity.
  Qed.
  Lemma hblocks_adj pre blk next post : hblocks = pre ++ blk :: next :: post -> exists k, k + 1 <= m /\ blk = cells z d m (k + 1) /\ next = cells z d m k.
  Proof.
    intros E. apply (f_equal (@rev _)) in E. unfold hblocks in E. rewrite map_rev, rev_involutive, rev_app_distr in E. cbn [rev] in E. rewrite <- !app_assoc in E. cbn [app] in E.
    destruct (@map_seq_adj m Hm _ _ _ _ _ _ _ _ E) as (k & _ & Hk & -> & ->). exists k. split; [lia|auto].
  Qed.
  Lemma hblocks_last pre blk : hblocks = pre ++ [blk] -> blk = cells z d m 0.
  Proof.
    intros E. apply (f_equal (@rev _)) in E. unfold hblocks in E. rewrite map_rev, rev_involutive, rev_app_distr in E. cbn [rev app] in E.
    rewrite Nat.add_1_r in E. cbn [seq map] in E. now injection E.
  Qed.
  Lemma vertex_col c r : In c (cells z d m 0) -> BDm c r = f0.
  Proof.
    intros Hc. apply cells_in in Hc; auto; [|lia]. destruct Hc as (s & Hs & Hls & ->). destruct (fscalar_dec (BDm (code n s) r)) as [|Hn]; auto. exfalso.
    apply (BD_den_nz d Hm Hfit) in Hn; auto; [|lia]. destruct Hn as (u & i & Hu & Hf & ->). pose proof (facet_length Hf). assert (length u = 0) by lia. destruct u; [destruct Hu; congruence|discriminate].
  Qed.
  Theorem hom_block_complex : block_complex (phi : rips_index -> F) B (rips_split (rbases z d m)) (rev (seq 0 (m + 1))) hblocks.
  Proof.
    assert (Hk : forall k, In k (rev (seq 0 (m + 1))) -> k <= m) by (intros k Hk; apply in_rev, in_seq in Hk; lia).
    pose proof (BD_square (K:=K) Hd Hm Hfit (tb z d m) Hphi) as (Hnd & Hen & Hco).
    assert (Hndb : NoDup (concat hblocks)).
    { assert (Hp : Permutation (concat hblocks) l).
      { unfold hblocks, all_cells. clear. assert (H : forall ks, Permutation (concat (map (fun k => cells z d m k : list rips_index) (rev ks))) (concat (map (cells z d m) ks))).
        { induction ks as [|k ks IH]; auto. cbn [rev map concat]. rewrite map_app, concat_app. cbn [map concat]. rewrite app_nil_r. etransitivity; [apply Permutation_app_comm|]. now apply Permutation_app_head. }
        apply H. }
      eapply Permutation_NoDup; [symmetry; exact Hp|exact Hnd]. }
    refine (conj Hndb (conj _ (conj _ (conj _ (conj _ _))))).
    - unfold hblocks. revert Hk. generalize (rev (seq 0 (m + 1))). intros l0; induction l0 as [|k ks IH]; intros Hk; cbn [map]; constructor; [apply hsub, Hk; now left|apply IH; intros; apply Hk; now right].
    - intros c Hc. apply hblocks_in in Hc. auto.
    - intros blk x y Hb Hxy. apply in_map_iff in Hb. destruct Hb as (k & <- & Hin). eapply (@cells_row_lt F z d m Hd Hm phi Hphi k); auto.
    - intros pre blk next post E c Hc. apply hblocks_adj in E. destruct E as (k & Hkm & -> & ->).
      pose proof Hc as Hc'. apply cells_in in Hc'; auto. destruct Hc' as (s & Hs & Hls & ->).
      assert (Hcl : In (code n s) l) by (apply l_cells; auto; exists s; split; auto; split; auto; lia).
      assert (Hnx : forall r i, facet s i r -> r <> [] -> In (code n r) (cells z d m k)).
      { intros r i Hf Hne. apply cells_in; auto; [lia|]. exists r. split; [eapply facet_simplex; eauto|]. pose proof (facet_length Hf). split; auto. lia. }
      split.
      + intros t kk r Et Hr. rewrite (BD_col d Hm Hfit) in Et by (auto; lia). injection Et as <-. apply face_terms_in in Hr. destruct Hr as (i & u & Hf & Hne & -> & _). eauto.
      + intros r. destruct BD_complex as [_ C2]. specialize (C2 _ Hcl r). rewrite <- C2. symmetry. apply lincomb_incl; auto.
        * apply cells_nodup; auto. lia.
        * intros x Hx. apply cells_in in Hx; auto; [|lia]. destruct Hx as (u & Hu & Hlu & ->). apply l_cells; auto. exists u. split; auto. split; auto. lia.
        * intros x _ Hno. destruct (fscalar_dec (BDm (code n s) x)) as [|Hn]; auto. exfalso. apply Hno. apply (BD_den_nz d Hm Hfit) in Hn; auto; [|lia]. destruct Hn as (u & i & Hu & Hf & ->). eapply Hnx; eauto. apply Hu.
    - intros pre blk E c r Hc Hn. apply hblocks_last in E. subst blk. exfalso. apply Hn. now apply vertex_col.
  Qed.
End Homology.

(** ** C70 *)
Theorem C70_rips_homology :
  forall (HI HI' : heaps) (K : coeffT) (F : ordT) (uw : N) (z : F) (d : list (list F)) (max_dim : nat),
  rips_matrix z d -> 1 <= max_dim -> codes_fit uw (length d) (max_dim + 2) ->
  forall (L : list N) (fuel fuel' : nat), covers_simplices (length d) (max_dim + 2) L -> length L < fuel -> length L < fuel' ->
  exists mat sb v dg rc dg',
    build_rips_boundary_matrix (K:=K) uw z d max_dim = Ok (mat, sb) /\
    standard_algo_with_diagram HI fuel mat (sb_total sb) false = Ok (v, dg) /\
    build_with_diagram HI' fuel' mat sb (rev (seq 0 (max_dim + 1))) = Ok (rc, dg') /\
    (forall p, In p (pairings dg) <-> In p (pairings dg')) /\ (forall c, In c (essential dg) <-> In c (essential dg')) /\
    forall (phi : N_ord -> F) (D : N_ord -> vec K N_ord) (dim : N_ord -> Z) (k : nat) (l : list N_ord),
      rips_filtration z d phi -> rips_boundary_matrix (length d) D -> simplex_dim (length d) dim -> lists_simplices (length d) k l ->
      forall q s t b, k = max_dim + 1 \/ max_dim + 1 <= k /\ (q < Z.of_nat max_dim)%Z ->
        (persistent_betti phi dim (-1) l D q s t b <-> b = length (alive phi dim (essential dg) (pairings dg) q s t)) /\
        (persistent_betti phi dim (-1) l D q s t b <-> b = length (alive phi dim (essential dg') (pairings dg') q s t)).
Proof.
  intros HI HI' K F uw z d m Hd Hm Hfit L fuel fuel' HL Hf Hf'.
  pose proof (some_phi_ok Hd) as Hp0. set (phi0 := some_phi z d) in *.
  pose proof (@BD_square K F uw z d m Hd Hm Hfit (tb z d m) phi0 Hp0) as Hsq.
  pose proof (@BD_before K F uw z d m Hd Hm Hfit (tb z d m) phi0 Hp0) as Hbef.
  pose proof (hom_block_complex (K:=K) Hd Hm Hfit Hp0) as HB.
  assert (Hrows : length (row_set (m_col (BD (K:=K) uw d (tb z d m))) (all_cells z d m)) <= length L) by apply (@BD_rows K F uw z d m Hm Hfit (tb z d m) L HL).
  assert (Hrows' : length (row_set (m_col (BD (K:=K) uw d (tb z d m))) (concat (hblocks z d m))) <= length L).
  { etransitivity; [|exact Hrows]. apply NoDup_incl_length; [apply NoDup_nodup|]. intros r Hr. unfold row_set in *. apply nodup_In. apply nodup_In in Hr. apply in_flat_map in Hr. apply in_flat_map.
    destruct Hr as (c & Hc & Hr). exists c. split; [exact (proj1 (@hblocks_in F z d m c) Hc)|exact Hr]. }
  pose proof (@lists_l F z d m Hm) as Hll.
  destruct (@C32_clearing_agrees_with_standard HI' HI K rips_index F _ _ _ _ _ HB (tb z d m) (all_cells z d m) false (proj1 Hll) (tb_enum z d m)) with (fuel := fuel') (fuel' := fuel) as (rc & dg' & v & dg & E1 & E2 & S1 & S2); auto; try lia.
  { intros c. symmetry. apply hblocks_in. }
  { intros blk x y Hb Hxy. apply in_map_iff in Hb. destruct Hb as (k & <- & Hk). rewrite <- in_rev in Hk. apply in_seq in Hk.
    pose proof (before_in Hxy) as [Hx Hy]. assert (Hin : forall c, In c (cells z d m k) -> In c (all_cells z d m)).
    { intros c Hc. unfold all_cells. apply in_concat. exists (cells z d m k). split; auto. apply in_map. apply in_seq. lia. }
    pose proof (@cells_row_lt F z d m Hd Hm phi0 Hp0 k _ _ ltac:(lia) Hxy) as Hrow.
    apply cells_in in Hx, Hy; auto; try lia. destruct Hx as (s & Hs & Hls & ->). destruct Hy as (t & Ht & Hlt & ->).
    destruct (@before_total rips_index (all_cells z d m) (code (length d) s) (code (length d) t)) as [E|[H|H]]; auto.
    - apply Hin. apply cells_in; auto; [lia|]. eauto.
    - apply Hin. apply cells_in; auto; [lia|]. eauto.
    - exfalso. rewrite E in Hrow. destruct Hrow as [H|[_ H]]; eapply olt_irrefl; eauto.
    - exfalso. apply (@all_cells_before F z d m Hd Hm _ Hp0) in H; auto. destruct H as [H|[_ H]]; [lia|]. eapply row_lt_asym; eauto. }
  { intros pre blk next post c r E Hc Hr. apply hblocks_adj in E; [|exact Hm]. destruct E as (k & Hk & -> & ->). apply cells_in in Hc, Hr; auto; try lia.
    destruct Hc as (s & Hs & Hls & ->). destruct Hr as (t & Ht & Hlt & ->).
    destruct (@before_total rips_index (all_cells z d m) (code (length d) t) (code (length d) s)) as [E|[H|H]]; auto.
    - apply Hll. exists t. split; auto. split; auto. lia.
    - apply Hll. exists s. split; auto. split; auto. lia.
    - apply code_inj in E; [|apply Ht|apply Hs]. subst t. lia.
    - exfalso. apply (@all_cells_before F z d m Hd Hm _ Hp0) in H; auto. destruct H as [H|[H _]]; lia. }
  exists (BD (K:=K) uw d (tb z d m)), (rips_split (rbases z d m)), v, dg, rc, dg'.
  split; [unfold build_rips_boundary_matrix; rewrite built by auto; reflexivity|]. split; [exact E2|]. split; [exact E1|].
  split; [intros p; symmetry; apply S1|]. split; [intros c; symmetry; apply S2|].
  intros phi D dim k l Hphi HD Hdim Hl q s t b Hcase.
  pose proof (@BD_square K F uw z d m Hd Hm Hfit (tb z d m) phi Hphi) as Hsq1.
  assert (Hag : forall c, In c (all_cells z d m) -> dim c = (dim_of d c - 1)%Z).
  { intros c Hc. apply Hll in Hc. destruct Hc as (u & Hu & _ & ->). unfold dim_of. rewrite gr_code by auto. now apply Hdim. }
  assert (Hgr : graded dim (-1) (all_cells z d m : list rips_index) (mden (m_col (BD (K:=K) uw d (tb z d m))))).
  { intros c r Hc Hn. pose proof (BD_graded z d Hm Hfit (tb z d m) c r Hc Hn) as Hg. pose proof (@BD_before K F uw z d m Hd Hm Hfit (tb z d m) phi Hphi c r Hc Hn) as Hb. apply before_in in Hb.
    rewrite (Hag c Hc), (Hag r (proj1 Hb)), Hg. lia. }
  assert (Hgo : graded_order phi dim (all_cells z d m : list rips_index)).
  { intros x y Hb Hg. pose proof (before_in Hb) as [Hx Hy]. rewrite (Hag x Hx), (Hag y Hy) in Hg. refine (BD_order Hd Hm Hphi Hb _). lia. }
  destruct (@C52_bars_count_persistent_betti HI K rips_index F phi _ _ _ Hsq1 dim (-1)%Z (BD_complex (K:=K) Hd Hm Hfit) Hgr Hgo
    (@BD_before K F uw z d m Hd Hm Hfit (tb z d m) phi Hphi) fuel ltac:(lia)) as (v1 & dg1 & E3 & H3).
  cbv zeta in E3. change (sb_total (rips_split (rbases z d m))) with (tb z d m) in *.
  rewrite E2 in E3. injection E3 as <- <-.
  destruct (@C53_clearing_diagram_is_barcode HI' K rips_index F phi _ _ _ _ (hom_block_complex (K:=K) Hd Hm Hfit Hphi)) with (dim := dim) (deg := (-1)%Z) (fuel := fuel') as (rc1 & dg1 & E4 & _ & H4).
  { intros pre blk E c r Hc. apply hblocks_last in E. subst blk. now apply vertex_col. }
  { intros x y Hx Hy. apply (proj1 (@hblocks_in F z d m _)) in Hx, Hy. rewrite (Hag x Hx), (Hag y Hy). apply Hll in Hx, Hy. destruct Hx as (u & Hu & Hlu & ->). destruct Hy as (w & Hw & Hlw & ->). unfold dim_of. rewrite !gr_code by auto.
    assert (0 < length u) by (destruct u; [destruct Hu; congruence|simpl; lia]). assert (0 < length w) by (destruct w; [destruct Hw; congruence|simpl; lia]). split.
    - intros E. exists (cells z d m (length u - 1)). split; [apply (in_map (fun k => cells z d m k)); rewrite <- in_rev; apply in_seq; lia|]. split; (apply cells_in; auto; [lia|]); [exists u|exists w]; (split; [auto|]); (split; [lia|auto]).
    - intros (blk & Hb & H1 & H2). apply in_map_iff in Hb. destruct Hb as (j & <- & Hj). rewrite <- in_rev in Hj. apply in_seq in Hj. apply cells_in in H1, H2; auto; try lia.
      destruct H1 as (u' & Hu' & Hlu' & Eu). destruct H2 as (w' & Hw' & Hlw' & Ew). apply code_inj in Eu; [|apply Hu|apply Hu']. apply code_inj in Ew; [|apply Hw|apply Hw']. subst u' w'. lia. }
  { intros c r Hc. apply (proj1 (@hblocks_in F z d m _)) in Hc. exact (Hgr c r Hc). }
  { lia. }
  rewrite E1 in E4. injection E4 as <- <-.
  (* the betti numbers of the two lists of cells agree *)
  assert (Hnk : forall j c, (k = m + 1 \/ m + 1 <= k /\ (j < Z.of_nat m + 1)%Z) -> dim c = j -> (In c (all_cells z d m) <-> In c l)).
  { intros j c Hj Ec. destruct Hl as [_ Hl]. rewrite Hl. rewrite (proj2 Hll c). split; intros (u & Hu & Hlu & ->); exists u; (split; [auto|]); (split; [|auto]); [lia|].
    rewrite Hdim in Ec by auto. lia. }
  assert (Hbet : forall b0, persistent_betti phi dim (-1) (all_cells z d m : list N_ord) (mden (m_col (BD (K:=K) uw d (tb z d m)))) q s t b0 <-> persistent_betti phi dim (-1) l D q s t b0).
  { intros b0. transitivity (persistent_betti phi dim (-1) (all_cells z d m : list N_ord) D q s t b0).
    - split; apply same_betti; auto; try apply Hll; try tauto; intros c Hc; (split; [auto|split; [auto|]]); intros r; [apply BD_spec; auto|symmetry; apply BD_spec; auto].
    - assert (HH : forall l1 l2 : list N_ord, NoDup l1 -> NoDup l2 -> (forall c, dim c = q \/ dim c = (q - -1)%Z -> (In c l1 <-> In c l2)) ->
        persistent_betti phi dim (-1) l1 D q s t b0 -> persistent_betti phi dim (-1) l2 D q s t b0).
      { intros l1 l2 N1 N2 H12 (I & bars & Z & Hb & Hlen). exists I, bars, Z. split; [|exact Hlen]. exact (basis_transfer N1 N2 H12 Hb). }
      split; apply HH; try apply Hll; try apply Hl; intros c [Ec|Ec]; first [eapply Hnk; [|exact Ec]; lia|symmetry; eapply Hnk; [|exact Ec]; lia]. }
  rewrite <- !Hbet. split; [apply H3|].
  specialize (H4 q s t b). rewrite <- H4.
  split; apply same_betti; try apply Hll; try (apply (hom_block_complex (K:=K) Hd Hm Hfit Hphi)); try (intros c _; split; [auto|split; [auto|reflexivity]]); intros c; [symmetry|]; exact (@hblocks_in F z d m c).
Qed.
Print Assumptions C70_rips_homology.

(** The four points of C44_ex, max_dim 2: three bars of dimension 0 and three of dimension 1 end; the whole triangulated
    sphere, which no tetrahedron fills, is a second essential class -- the "additional essential idx" of the repo's test. *)
Example C70_ex : exists mat sb v dg rc dg',
  build_rips_boundary_matrix (K:=Z3_coeff) (2 ^ 64) (0 : nat_ord) line4 2 = Ok (mat, sb) /\
  standard_algo_with_diagram list_heaps 700 mat (sb_total sb) false = Ok (v, dg) /\
  build_with_diagram list_heaps 700 mat sb [2; 1; 0] = Ok (rc, dg') /\
  length (pairings dg) = 6 /\ essential dg = [code 4 [0; 2; 3]; code 4 [0]] /\
  rips_matrix (0 : nat_ord) line4 /\ codes_fit (2 ^ 64) (length line4) (2 + 2) /\ covers_simplices (length line4) (2 + 2) (map N.of_nat (seq 0 625)).
Proof.
  destruct C44_ex_hyps as (H1 & H2 & H3). do 6 eexists.
  split; [reflexivity|]. split; [vm_compute; reflexivity|]. split; [vm_compute; reflexivity|].
  split; [vm_compute; reflexivity|]. split; [vm_compute; reflexivity|]. auto.
Qed.
