(** Property theorems C44: the Rips pipeline from distances to diagram. *)
From Verif Require Import Base Fields FieldsFacts Spec LinAlg Columns ColumnsFacts Matrices SpecMat MatricesFacts Reduction LoopProofs StandardProofs ReadOffProofs Graded StandardResults ClearingProofs PropMatrices PropStandard PropClearing Duality PropDuality Rips SpecRips RipsCode RipsFacts RipsBasis PropRips RipsComplex RipsCohomology.
From Coq Require Import Ring_theory Sorted Lia.
Set Implicit Arguments.

Notation rN := (rev_ord rips_index).

(** the diameters of the simplices, whatever the matrix *)
Definition any_phi {F : ordT} (z : F) (d : list (list F)) (c : N) : F :=
  match to_vec (length d) c with Ok s => maxl z (map (fun p => dist z d (fst p) (snd p)) (list_prod s s)) | _ => z end.
Lemma any_phi_ok {F : ordT} (z : F) (d : list (list F)) : rips_filtration z d (any_phi z d).
Proof.
  intros s Hs. unfold any_phi. rewrite to_vec_code by apply Hs. set (l := map _ _).
  destruct (@maxl_spec F z l) as [H1 H2].
  - unfold l. destruct Hs as (Hne & _). destruct s; [congruence|]. discriminate.
  - split.
    + unfold l at 2 in H1. apply in_map_iff in H1. destruct H1 as ([i j] & E & Hij). apply in_prod_iff in Hij. exists i, j. split; [apply Hij|]. split; [apply Hij|]. exact E.
    + intros i j Hi Hj. apply H2. unfold l. apply in_map_iff. exists (i, j). split; auto. now apply in_prod.
Qed.

Section Pre.
  Context {K : coeffT} {F : ordT} (uw : N) (z : F) (d : list (list F)) (m : nat).
  Notation n := (length d).
  Notation rF := (rev_ord F).
  Hypothesis Hd : rips_matrix z d.
  Hypothesis Hm : 1 <= m.
  Hypothesis Hfit : codes_fit uw n (m + 2).

  Definition some_phi (c : N) : F := match to_vec n c with Ok s => uval z d s | _ => z end.
  Lemma some_phi_ok : rips_filtration z d some_phi.
  Proof.
    intros s Hs. unfold some_phi. rewrite to_vec_code by apply Hs. apply uval_diameter; auto; apply Hs.
  Qed.
  Definition tb : basis rips_index := sb_total (rips_split (rbases z d m)).
  Lemma tb_enum : enumerates tb (all_cells z d m).
  Proof.
    destruct (@C39_rips_basis F (rbases z d m)) as (H & _). unfold tb. replace (all_cells z d m) with (concat (map (map snd) (rbases z d m))); auto.
    unfold all_cells, rbases, cells. rewrite map_map. reflexivity.
  Qed.
  Lemma coboundary_built : build_rips_coboundary_matrix (K:=K) uw z d m =
    Ok (fst (matrix_with_basis (rips_coboundary (K:=K) uw d) tb), rips_split (rbases z d m)).
  Proof. unfold build_rips_coboundary_matrix. rewrite built by auto. reflexivity. Qed.
  Lemma run_unfold HI fuel : rips_cohomology HI (K:=K) fuel uw z d m =
    build_with_diagram HI fuel (RD (K:=K) uw d tb) (reverse_split (rips_split (rbases z d m))) (seq 0 (m + 1)).
  Proof. unfold rips_cohomology. rewrite coboundary_built. reflexivity. Qed.

  Lemma RD_rows b l L : covers_simplices n (m + 2) L -> (forall c, In c l -> exists s, simplex n s /\ length s <= m + 1 /\ c = Reverse (code n s)) ->
    length (row_set (m_col (RD (K:=K) uw d b)) l) <= length L.
  Proof.
    intros HL Hl. rewrite <- (map_length (@Reverse N) L). apply NoDup_incl_length; [apply NoDup_nodup|].
    intros r Hr. unfold row_set in Hr. apply nodup_In in Hr. apply in_flat_map in Hr. destruct Hr as (c & Hc & Hr).
    destruct (Hl c Hc) as (s & Hs & Hls & ->). rewrite (@RD_col K F uw d m Hm Hfit b s Hs Hls) in Hr.
    apply in_map_iff in Hr. destruct Hr as ([k r'] & E & Hr). simpl in E. subst r'.
    apply (@RD_col_in K F d m) in Hr; auto. destruct Hr as (t & i & Ht & Hf & ->). apply in_map. apply HL; auto. rewrite (facet_length Hf). lia.
  Qed.
  Lemma RD_rev b (D : N -> vec K N) l phi : rips_coboundary_matrix n D -> rips_order d (phi : N_ord -> F) (m + 1) l ->
    forall c, In c (rev_basis l : list rN) -> forall r, mden (m_col (RD (K:=K) uw d b)) c r = rev_matrix D c r.
  Proof.
    intros [D1 D2] Hl c Hc r. apply (lr_in m Hl) in Hc. destruct Hc as (s & Hs & Hls & ->). unfold rev_matrix. cbn [unrev]. destruct r as [r]. cbn [unrev].
    assert (Hsp : forall t, simplex n t -> inc t s = D (code n s) (code n t)).
    { intros t Ht. destruct (facet_dec t s) as [(i & Hf)|Hn].
      - rewrite (D1 s t i) by auto. apply inc_facet; auto. destruct Ht as (_ & Hst & _). now apply sorted_nodup.
      - rewrite inc_none by exact Hn. destruct (fscalar_dec (D (code n s) (code n t))) as [->|Hnz]; auto. exfalso.
        apply D2 in Hnz; auto. destruct Hnz as (t' & i & Ht' & Hf & E). apply code_inj in E; [|apply Ht|apply Ht']. subst t'. apply (Hn i). exact Hf. }
    destruct (fscalar_dec (mden (m_col (RD (K:=K) uw d b)) (Reverse (code n s)) (Reverse r))) as [E|Hnz].
    - rewrite E. destruct (fscalar_dec (D (code n s) r)) as [->|Hnz]; auto. exfalso. pose proof Hnz as Hnz'. apply D2 in Hnz'; auto.
      destruct Hnz' as (t & i & Ht & Hf & ->). apply Hnz. rewrite <- Hsp by auto. rewrite <- E. symmetry. apply (@RD_den K F uw d m Hm Hfit b); auto.
    - pose proof Hnz as Hnz'. apply (@RD_den_nz K F uw d m Hm Hfit b) in Hnz'; auto. destruct Hnz' as (t & i & Ht & Hf & E). injection E as ->.
      rewrite (@RD_den K F uw d m Hm Hfit b) by auto. auto.
  Qed.
End Pre.

(** ** C44, intrinsic form.  The CLI pipeline: build the coboundary of the distance table, reverse it, run the
    clearing algorithm in dimensions [0..=max_dim].  Its diagram is the persistence pairing of the (specified)
    coboundary matrix, with orders reversed, for every listing of the simplices compatible with (diameter, index). *)
Theorem C44_cohomology_intrinsic :
  forall (HI : heaps) (K : coeffT) (F : ordT) (uw : N) (z : F) (d : list (list F)) (max_dim : nat),
  rips_matrix z d -> 1 <= max_dim -> codes_fit uw (length d) (max_dim + 2) ->
  forall (L : list N) (fuel : nat), covers_simplices (length d) (max_dim + 2) L -> length L < fuel ->
  exists rc dg, rips_cohomology HI (K:=K) fuel uw z d max_dim = Ok (rc, dg) /\
    NoDup (pairings dg) /\ NoDup (essential dg) /\
    forall (phi : N -> F) (D : N -> vec K N) (l : list N),
      rips_filtration z d phi -> rips_coboundary_matrix (length d) D -> rips_order d (phi : N_ord -> F) (max_dim + 1) l ->
      (forall i j : rN, In (i, j) (pairings dg) <->
         In j (rev_basis l) /\ is_pair (rev_filtration phi : rN -> rev_ord F) (rev_basis l : list rN) (rev_matrix D) i j) /\
      (forall c : rN, In c (essential dg) <->
         is_essential (rev_filtration phi : rN -> rev_ord F) (rev_basis l : list rN) (rev_matrix D) c).
Proof.
  intros HI K F uw z d m Hd Hm Hfit L fuel HL Hfuel.
  pose proof (some_phi_ok Hd) as Hp0.
  assert (Hrows : length (row_set (m_col (RD (K:=K) uw d (tb z d m))) (concat (rblocks z d m))) < fuel).
  { eapply Nat.le_lt_trans; [|exact Hfuel]. apply (@RD_rows K F uw d m Hm Hfit _ _ L HL). intros c Hc. apply rblocks_in in Hc; auto. }
  assert (HB : forall phi, rips_filtration z d phi -> block_complex (rphi (phi : N -> F)) (RD (K:=K) uw d (tb z d m)) (reverse_split (rips_split (rbases z d m))) (seq 0 (m + 1)) (rblocks z d m)).
  { intros phi Hphi. apply rips_block_complex; auto. }
  destruct (@C32_clearing_intrinsic HI K rN (rev_ord F) _ _ _ _ _ (HB _ Hp0) fuel Hrows) as (rc & dg & E & N1 & N2 & _).
  exists rc, dg. split; [rewrite run_unfold by auto; exact E|]. split; auto. split; auto.
  intros phi D l Hphi HD Hl.
  destruct (@C32_clearing_intrinsic HI K rN (rev_ord F) _ _ _ _ _ (HB _ Hphi) fuel Hrows) as (rc' & dg' & E' & _ & _ & H).
  rewrite E in E'. injection E' as <- <-.
  destruct (H (rev_basis l)) as [Hpairs Hess].
  - apply (lr_nodup m Hl).
  - apply (lr_blocks z Hm Hl).
  - intros blk x y. apply (@lr_before F z d m Hd Hm phi Hphi l Hl blk x y).
  - assert (Ext : forall c, In c (rev_basis l : list rN) -> forall r, mden (m_col (RD (K:=K) uw d (tb z d m))) c r = rev_matrix D c r).
    { intros c. apply (@RD_rev K F uw d m Hm Hfit (tb z d m) D l phi HD Hl). }
    split.
    + intros i j. rewrite Hpairs. change (rphi (phi : N -> F)) with (rev_filtration phi : rN -> rev_ord F). rewrite (is_pair_ext _ _ _ _ Ext). reflexivity.
    + intros c. rewrite Hess. apply (is_essential_ext _ _ _ _ Ext).
Qed.
Print Assumptions C44_cohomology_intrinsic.

(** ** The same diagram by the standard algorithm on the same matrix *)
Theorem C44_agrees_with_standard :
  forall (HI HI' : heaps) (K : coeffT) (F : ordT) (uw : N) (z : F) (d : list (list F)) (max_dim : nat),
  rips_matrix z d -> 1 <= max_dim -> codes_fit uw (length d) (max_dim + 2) ->
  forall (L : list N) (fuel fuel' : nat), covers_simplices (length d) (max_dim + 2) L -> length L < fuel -> length L < fuel' ->
  exists rc dg mat sb v dg',
    rips_cohomology HI (K:=K) fuel uw z d max_dim = Ok (rc, dg) /\
    build_rips_coboundary_matrix (K:=K) uw z d max_dim = Ok (mat, sb) /\
    standard_algo_with_diagram HI' fuel' (by_ref (reverse_f mat)) (reverse_basis (sb_total sb)) false = Ok (v, dg') /\
    (forall p, In p (pairings dg) <-> In p (pairings dg')) /\
    (forall c, In c (essential dg) <-> In c (essential dg')).
Proof.
  intros HI HI' K F uw z d m Hd Hm Hfit L fuel fuel' HL Hfuel Hfuel'.
  pose proof (some_phi_ok Hd) as Hp0. pose proof (@all_cells_order F z d m Hd Hm _ Hp0) as Ho.
  assert (HB : block_complex (rphi (some_phi z d : N -> F)) (RD (K:=K) uw d (tb z d m)) (reverse_split (rips_split (rbases z d m))) (seq 0 (m + 1)) (rblocks z d m)).
  { apply rips_block_complex; auto. }
  destruct (@C32_clearing_agrees_with_standard HI HI' K rN (rev_ord F) _ _ _ _ _ HB (reverse_basis (tb z d m)) (rev_basis (all_cells z d m)) false) with (fuel := fuel) (fuel' := fuel')
    as (rc & dg & v & dg' & E & E' & H1 & H2).
  - apply (lr_nodup m Ho).
  - apply (C15_reverse_basis (tb_enum z d m)).
  - apply (lr_blocks z Hm Ho).
  - intros blk x y. apply (@lr_before F z d m Hd Hm _ Hp0 _ Ho blk x y).
  - intros pre blk next post [c] [r] Eb Hc Hr. unfold rblocks in Eb. apply (@map_seq_adj m Hm) in Eb. destruct Eb as (k & _ & Hk & -> & ->).
    apply (rev_basis_before (C:=rips_index)). apply (rev_basis_in (C:=rips_index)) in Hc, Hr.
    assert (Hcl : In c (all_cells z d m)) by (apply in_concat; exists (cells z d m k); split; auto; apply in_map; apply in_seq; lia).
    assert (Hrl : In r (all_cells z d m)) by (apply in_concat; exists (cells z d m (k + 1)); split; auto; apply in_map; apply in_seq; lia).
    apply cells_in in Hc, Hr; auto; try lia. destruct Hc as (s & Hs & Hls & ->). destruct Hr as (t & Ht & Hlt & ->).
    destruct (@before_total rips_index _ _ _ Hcl Hrl) as [Eq|[H|H]]; [exfalso|exact H|exfalso].
    + apply code_inj in Eq; [|apply Hs|apply Ht]. subst t. lia.
    + apply (@all_cells_before F z d m Hd Hm _ Hp0) in H; auto. lia.
  - eapply Nat.le_lt_trans; [|exact Hfuel]. apply (@RD_rows K F uw d m Hm Hfit _ _ L HL). intros c Hc. apply rblocks_in in Hc; auto.
  - eapply Nat.le_lt_trans; [|exact Hfuel']. apply (@RD_rows K F uw d m Hm Hfit _ _ L HL). intros c Hc. apply (lr_in m Ho) in Hc. exact Hc.
  - exists rc, dg, (fst (matrix_with_basis (rips_coboundary (K:=K) uw d) (tb z d m))), (rips_split (rbases z d m)), v, dg'.
    split; [rewrite run_unfold by auto; exact E|]. split; [apply coboundary_built; auto|]. split; [exact E'|]. split; auto.
Qed.
Print Assumptions C44_agrees_with_standard.

(** ** What the diagram of a Rips complex looks like *)
Section Shape.
  Context {K : coeffT} {F : ordT} (uw : N) (z : F) (d : list (list F)) (m : nat).
  Notation n := (length d).
  Hypothesis Hd : rips_matrix z d.
  Hypothesis Hm : 1 <= m.
  Hypothesis Hfit : codes_fit uw n (m + 2).
  Variable b : basis rips_index.
  Variable phi : N -> F.
  Hypothesis Hphi : rips_filtration z d phi.
  Variable l : list N.
  Hypothesis Hl : rips_order d (phi : N_ord -> F) (m + 1) l.
  Notation lr := (rev_basis l : list rN).
  Notation rp := (rphi (phi : N -> F)).
  Notation RDm := (mden (m_col (RD (K:=K) uw d b))).

  Lemma pair_shape i j : In j lr -> is_pair rp lr RDm i j ->
    exists s t, simplex n s /\ simplex n t /\ length s <= m + 1 /\ length t = length s + 1 /\
      j = Reverse (code n s) /\ i = Reverse (code n t) /\ ole (phi (code n s)) (phi (code n t)).
  Proof.
    intros Hj Hp. pose proof (RD_graded (K:=K) Hm Hfit b Hl) as Hg.
    pose proof (fun x => RD_fin (K:=K) uw d b (phi : N -> F) l x) as Hfin.
    pose proof (pair_grade Hfin Hg Hp) as Hgr. pose proof Hj as Hj'. apply (lr_in m Hl) in Hj'. destruct Hj' as (s & Hs & Hls & Es).
    destruct Hp as (_ & (x & He & [Hnz _]) & _). apply lincomb_nonzero in Hnz. destruct Hnz as (c & Hc & Hxc & Hnz).
    pose proof Hc as Hc'. apply (lr_in m Hl) in Hc'. destruct Hc' as (u & Hu & Hlu & Eu). subst c. 
    apply (@RD_den_nz K F uw d m Hm Hfit b) in Hnz; auto. destruct Hnz as (t & k & Ht & Hf & ->). subst j.
    rewrite !gr_code in Hgr by auto. pose proof (facet_length Hf) as Hfl. assert (Elen : length u = length s) by lia.
    exists s, t. split; auto. split; auto. split; auto. split; [lia|]. split; auto. split; auto.
    assert (Hut : ole (phi (code n u)) (phi (code n t))).
    { eapply diameter_mono; [|apply Hphi; auto|apply Hphi; auto]. eapply facet_incl; eauto. }
    eapply ole_trans; [|exact Hut]. destruct He as (B1 & B2 & E & _ & Hz0). rewrite E in Hc. apply in_app_iff in Hc. destruct Hc as [Hc|[Hc|Hc]].
    - assert (Hb : before lr (Reverse (code n u) : rN) (Reverse (code n s))).
      { apply in_split in Hc. destruct Hc as (A1 & A2 & ->). exists A1, A2, B2. rewrite E, <- app_assoc. reflexivity. }
      apply (rev_basis_before (C:=rips_index) l) in Hb. destruct Hl as (_ & _ & Ho). apply Ho in Hb; auto.
      destruct Hb as [H|[H _]]; [apply ole_lt_eq; auto|]. change ((phi : N_ord -> F) (code n s)) with (phi (code n s)) in H. rewrite H. apply ole_refl.
    - apply (f_equal unrev) in Hc. cbn [unrev] in Hc. rewrite Hc. apply ole_refl.
    - exfalso. apply Hxc. auto.
  Qed.
  Lemma births_positive i j : In i lr -> In j lr -> is_pair rp lr RDm i j -> is_positive lr RDm i.
  Proof.
    intros Hi Hj Hp. pose proof (@rips_block_complex K F uw z d m Hd Hm Hfit phi Hphi b) as HB.
    destruct (@C31_clearing_decomposition list_heaps K rN (rev_ord F) rp (RD (K:=K) uw d b) _ _ _ HB
       (S (length (row_set (m_col (RD (K:=K) uw d b)) (concat (rblocks z d m)))))) as (rc & dg & _ & H & Hcl & _); [lia|].
    cbv zeta in H, Hcl. destruct (H lr (lr_nodup m Hl) (lr_blocks z Hm Hl) (@lr_before F z d m Hd Hm phi Hphi l Hl)) as (H1 & H2 & H3).
    assert (HR : reduced rp lr (fun j => lincomb lr (mden (crm_column (m_col (RD (K:=K) uw d b)) rc) j) RDm)).
    { intros a c r Ha Hc L1 L2. apply (H2 a c r Ha Hc).
      - eapply leading_ext; [|exact L1]. intros q. first [apply H3; auto|symmetry; apply H3; auto].
      - eapply leading_ext; [|exact L2]. intros q. first [apply H3; auto|symmetry; apply H3; auto]. }
    destruct (@C25_any_decomposition K (rev_ord F) rN rN rp lr RDm _ (lr_nodup m Hl) H1 HR) with (i := i) (j := j) as [HP _]; auto.
    { intros c _. apply RD_fin. }
    apply HP in Hp. assert (Hlead : leading rp (mden (product (m_col (RD (K:=K) uw d b)) (crm_column (m_col (RD (K:=K) uw d b)) rc)) j) i).
    { eapply leading_ext; [|exact Hp]. intros q. first [apply H3; auto|symmetry; apply H3; auto]. }
    destruct (Hcl i j) as [_ Hz]; auto; [apply (lr_blocks z Hm Hl); auto|apply (lr_blocks z Hm Hl); auto|].
    exists (mden (crm_column (m_col (RD (K:=K) uw d b)) rc) i). split; auto. intros r. rewrite <- H3 by auto. auto.
  Qed.
End Shape.

(** Every pair joins a simplex to a coface one dimension up that appears no earlier; every simplex of the basis
    except the vertex 0 is in exactly one pair, in exactly one role; the vertex 0 is the only essential class. *)
Theorem C44_diagram_shape :
  forall (HI : heaps) (K : coeffT) (F : ordT) (uw : N) (z : F) (d : list (list F)) (max_dim : nat),
  rips_matrix z d -> 1 <= max_dim -> codes_fit uw (length d) (max_dim + 2) ->
  forall (L : list N) (fuel : nat), covers_simplices (length d) (max_dim + 2) L -> length L < fuel ->
  exists rc dg, rips_cohomology HI (K:=K) fuel uw z d max_dim = Ok (rc, dg) /\
    (forall i j, In (i, j) (pairings dg) ->
       exists s t fs ft, simplex (length d) s /\ simplex (length d) t /\
         length s <= max_dim + 1 /\ length t = length s + 1 /\
         j = Reverse (code (length d) s) /\ i = Reverse (code (length d) t) /\
         diameter z d s fs /\ diameter z d t ft /\ ole fs ft) /\
    (forall s, simplex (length d) s -> length s <= max_dim + 1 ->
       let c := Reverse (code (length d) s) in
       (s = [0] \/ (exists i, In (i, c) (pairings dg)) \/ (exists j, In (c, j) (pairings dg))) /\
       ~ ((exists i, In (i, c) (pairings dg)) /\ (exists j, In (c, j) (pairings dg))) /\
       (s = [0] -> forall p, In p (pairings dg) -> fst p <> c /\ snd p <> c)) /\
    (forall i i' j j', In (i, j) (pairings dg) -> In (i', j') (pairings dg) -> (i = i' <-> j = j')) /\
    essential dg = (if length d =? 0 then [] else [Reverse (code (length d) [0])]).
Proof.
  intros HI K F uw z d m Hd Hm Hfit L fuel HL Hfuel.
  pose proof (some_phi_ok Hd) as Hp0. pose proof (@all_cells_order F z d m Hd Hm _ Hp0) as Hl.
  pose proof (@rips_block_complex K F uw z d m Hd Hm Hfit _ Hp0 (tb z d m)) as HB.
  assert (Hrows : length (row_set (m_col (RD (K:=K) uw d (tb z d m))) (concat (rblocks z d m))) < fuel).
  { eapply Nat.le_lt_trans; [|exact Hfuel]. apply (@RD_rows K F uw d m Hm Hfit _ _ L HL). intros c Hc. apply rblocks_in in Hc; auto. }
  destruct (@C32_clearing_intrinsic HI K rN (rev_ord F) _ _ _ _ _ HB fuel Hrows) as (rc & dg & E & N1 & N2 & H).
  destruct (H (rev_basis (all_cells z d m)) (lr_nodup m Hl) (lr_blocks z Hm Hl) (@lr_before F z d m Hd Hm _ Hp0 _ Hl)) as [HP HE]. clear H.
  exists rc, dg. split; [rewrite run_unfold by auto; exact E|].
  set (lr := rev_basis (all_cells z d m) : list rN) in *.
  assert (Hlr : forall s, simplex (length d) s -> length s <= m + 1 -> In (Reverse (code (length d) s) : rN) lr) by (intros s Hs Hls; apply (lr_in m Hl); eauto).
  pose proof (fun c => @essential_exact K F uw z d m Hd Hm Hfit (tb z d m) _ Hp0 _ Hl c) as HX. fold lr in HX.
  destruct (@RD_decomposition K F uw z d m Hd Hm Hfit (tb z d m) _ Hp0 _ Hl) as (V & HV & HR). fold lr in HV, HR.
  pose proof (fun x => RD_fin (K:=K) uw d (tb z d m) (some_phi z d : N -> F) (all_cells z d m) x) as Hfin. fold lr in Hfin.
  assert (Hnd : NoDup lr) by apply (lr_nodup m Hl).
  assert (Hshape : forall i j, In (i, j) (pairings dg) -> exists s t, simplex (length d) s /\ simplex (length d) t /\ length s <= m + 1 /\ length t = length s + 1 /\
      j = Reverse (code (length d) s) /\ i = Reverse (code (length d) t) /\ ole (some_phi z d (code (length d) s)) (some_phi z d (code (length d) t))).
  { intros i j Hij. apply HP in Hij. destruct Hij as [Hj Hij]. eapply pair_shape; eauto. }
  assert (Hpos : forall i j, In i lr -> In (i, j) (pairings dg) -> is_positive lr (mden (m_col (RD (K:=K) uw d (tb z d m)))) i).
  { intros i j Hi Hij. apply HP in Hij. destruct Hij as [Hj Hij]. eapply births_positive; eauto. }
  assert (Hess : forall s, simplex (length d) s -> (In (Reverse (code (length d) s)) (essential dg) <-> s = [0])).
  { intros s Hs. rewrite HE, HX. assert (Hn : 0 < length d) by (destruct Hs as (Hne & _ & Hb); destruct s; [congruence|inversion Hb; lia]).
    assert (Hs0 : simplex (length d) [0]) by (split; [discriminate|split; repeat constructor; lia]). split.
    - intros [_ Eq]. apply (f_equal unrev) in Eq. cbn [unrev] in Eq. apply code_inj in Eq; [exact Eq|apply Hs|apply Hs0].
    - intros ->. auto. }
  split; [|split; [|split]].
  - intros i j Hij. destruct (Hshape i j Hij) as (s & t & Hs & Ht & Hls & Hlt & E1 & E2 & Hle).
    exists s, t, (some_phi z d (code (length d) s)), (some_phi z d (code (length d) t)). 
    repeat match goal with |- _ /\ _ => split end; auto.
  - intros s Hs Hls c. pose proof (Hlr s Hs Hls) as Hc. fold c in Hc.
    assert (Hnb : ~ ((exists i, In (i, c) (pairings dg)) /\ (exists j, In (c, j) (pairings dg)))).
    { intros [(i & Hi) (j & Hj)]. apply Hpos in Hj; auto. apply HP in Hi. destruct Hi as [_ Hi]. eapply positive_not_death; eauto. }
    split; [|split; [exact Hnb|]].
    + destruct (positive_or_death Hnd HV HR Hfin c Hc) as [Hp|(i & Hi)].
      * destruct (birth_dec Hnd HV HR Hfin c Hc) as [(j & Hj & Hbd)|Hbd].
        -- right. right. exists j. apply HP. auto.
        -- left. apply Hess; auto. apply HE. split; auto.
      * right. left. exists i. apply HP. auto.
    + intros -> [i j] Hij. apply HP in Hij. destruct Hij as [Hj Hij]. assert (Hc' : In c (essential dg)) by (apply Hess; auto).
      apply HE in Hc'. destruct Hc' as (_ & Hp & Hno). cbn [fst snd]. split.
      * intros ->. apply (Hno j); auto.
      * intros ->. eapply positive_not_death; eauto.
  - intros i i' j j' H1 H2. apply HP in H1, H2. destruct H1 as [Hj H1]. destruct H2 as [Hj' H2]. split; intros <-.
    + eapply (pair_death_unique Hnd HV HR Hfin); eauto.
    + eapply (pair_birth_unique Hnd HV HR Hfin); eauto.
  - destruct (Nat.eqb_spec (length d) 0) as [E0|Hn].
    + destruct (essential dg) as [|c es] eqn:Ee; auto. exfalso. assert (Hc : In c (essential dg)) by (rewrite Ee; simpl; auto). rewrite Ee in Hc.
      apply HE, HX in Hc. lia.
    + assert (Hin : forall c, In c (essential dg) <-> c = Reverse (code (length d) [0])).
      { intros c. rewrite HE, HX. split; [tauto|]. intros ->. split; auto. lia. }
      destruct (essential dg) as [|c es]; [exfalso; assert (In (Reverse (code (length d) [0]) : rN) []) by (apply Hin; auto); auto|].
      assert (Ec : c = Reverse (code (length d) [0])) by (apply Hin; simpl; auto). destruct es as [|c' es]; [now rewrite Ec|].
      exfalso. assert (Ec' : c' = Reverse (code (length d) [0])) by (apply Hin; simpl; auto). inversion N2 as [|? ? Hni _]; subst. apply Hni. simpl; auto.
Qed.
Print Assumptions C44_diagram_shape.

(** ** Homology: the boundary matrix and the standard algorithm *)
Section Homology.
  Context {K : coeffT} {F : ordT} (uw : N) (z : F) (d : list (list F)) (m : nat).
  Notation n := (length d).
  Hypothesis Hd : rips_matrix z d.
  Hypothesis Hm : 1 <= m.
  Hypothesis Hfit : codes_fit uw n (m + 2).
  Variable b : basis rips_index.
  Variable phi : N -> F.
  Hypothesis Hphi : rips_filtration z d phi.
  Notation l := (all_cells z d m : list rips_index).
  Notation lr := (rev_basis (all_cells z d m) : list rN).
  Notation rp := (rphi (phi : N -> F)).
  Notation RDm := (mden (m_col (RD (K:=K) uw d b))).
  Definition BD : fmatrix K rips_index rips_index F := fst (matrix_with_basis (rips_boundary (K:=K) uw d) b).
  Notation BDm := (mden (m_col BD)).
  Let Hl : rips_order d (phi : N_ord -> F) (m + 1) l := @all_cells_order F z d m Hd Hm phi Hphi.

  Lemma BD_col t : simplex n t -> length t <= m + 1 -> m_col BD (code n t) = Ok (face_terms (K:=K) d t).
  Proof. intros Ht Hlt. apply boundary_column_ok; auto. apply Hfit; auto. lia. Qed.
  Lemma BD_den t s : simplex n t -> length t <= m + 1 -> simplex n s -> BDm (code n t) (code n s) = inc t s.
  Proof. intros Ht Hlt Hs. unfold mden. rewrite BD_col by auto. now apply face_terms_coef. Qed.
  Lemma BD_den_nz t r : simplex n t -> length t <= m + 1 -> BDm (code n t) r <> f0 -> exists s i, simplex n s /\ facet t i s /\ r = code n s.
  Proof.
    intros Ht Hlt H. unfold mden in H. rewrite BD_col in H by auto. apply coef_in in H. destruct H as [k Hk].
    apply face_terms_in in Hk. destruct Hk as (i & s & Hf & Hne & -> & _). exists s, i. split; auto. eapply facet_simplex; eauto.
  Qed.
  Lemma l_cells c : In c l <-> exists s, simplex n s /\ length s <= m + 1 /\ c = code n s.
  Proof. apply all_cells_in; auto. Qed.
  Lemma BD_square : square_matrix (phi : rips_index -> F) BD (tb z d m) l.
  Proof.
    split; [apply all_cells_nodup; auto|]. split; [apply tb_enum|]. intros c Hc. apply l_cells in Hc. destruct Hc as (t & Ht & Hlt & ->).
    eapply (@coherent_default K rips_index rips_index F) with (D := rips_boundary (K:=K) uw d).
    - apply BD_col; auto.
    - intros k r Hr. apply face_terms_in in Hr. destruct Hr as (i & s & Hf & Hne & -> & _).
      assert (Hs : simplex n s) by (eapply facet_simplex; eauto).
      destruct (@filtration_value_ok F z d s (proj1 Hd) Hs) as (f & E & Hdf). cbn [rips_boundary fm_default m_fil]. rewrite E. f_equal.
      eapply diameter_unique; [exact Hdf|now apply Hphi].
  Qed.
  Lemma BD_before c r : In c l -> BDm c r <> f0 -> before l r c.
  Proof.
    intros Hc Hn. pose proof Hc as Hc'. apply l_cells in Hc'. destruct Hc' as (t & Ht & Hlt & ->). apply BD_den_nz in Hn; auto. destruct Hn as (s & i & Hs & Hf & ->).
    pose proof (facet_length Hf). assert (Hr : In (code n s) l) by (apply l_cells; exists s; split; auto; split; auto; lia).
    destruct (@before_total rips_index _ _ _ Hr Hc) as [Eq|[H'|H']]; [exfalso|exact H'|exfalso].
    - apply code_inj in Eq; [|apply Hs|apply Ht]. subst t. lia.
    - apply (@all_cells_before F z d m Hd Hm _ Hphi) in H'; auto. lia.
  Qed.
  Definition dim_of (c : rips_index) : Z := gr d (Reverse c : rN).
  Lemma BD_graded : graded dim_of (-1) l BDm.
  Proof.
    intros c r Hc Hn. apply l_cells in Hc. destruct Hc as (t & Ht & Hlt & ->). apply BD_den_nz in Hn; auto. destruct Hn as (s & i & Hs & Hf & ->).
    unfold dim_of. rewrite !gr_code by auto. rewrite (facet_length Hf). lia.
  Qed.
  Lemma BD_order : graded_order (phi : rips_index -> F) dim_of l.
  Proof.
    intros x y Hb Hg. pose proof (before_in Hb) as [Hx Hy]. apply l_cells in Hx, Hy. destruct Hx as (s & Hs & _ & ->). destruct Hy as (t & Ht & _ & ->).
    unfold dim_of in Hg. rewrite !gr_code in Hg by auto. apply (@all_cells_before F z d m Hd Hm _ Hphi) in Hb; auto. destruct Hb as [|[_ H]]; [lia|exact H].
  Qed.

  (** the reversed coboundary with the rows outside the basis cut off *)
  Definition cut : rN -> vec K rN := fun c r => if in_dec (ord_eq_dec (T:=rN)) r lr then RDm c r else f0.
  Lemma cut_graded : graded (gr d) 1 lr cut.
  Proof.
    intros c r Hc Hn. unfold cut in Hn. destruct (in_dec _ r lr) as [|]; [|congruence]. exact (RD_graded (K:=K) Hm Hfit b Hl c r Hc Hn).
  Qed.
  Lemma cut_fin x : vzero (lincomb lr x cut) \/ exists i, leading rp (lincomb lr x cut) i.
  Proof.
    apply leading_exists with (S := lr). intros r Hr. apply lincomb_nonzero in Hr. destruct Hr as (c & _ & _ & Hn).
    unfold cut in Hn. destruct (in_dec _ r lr) as [|]; [auto|congruence].
  Qed.
  Lemma cut_pairs i j : In i lr -> In j lr -> (is_pair rp lr cut i j <-> is_pair rp lr RDm i j).
  Proof.
    intros Hi Hj. pose proof (RD_graded (K:=K) Hm Hfit b Hl) as Hg. pose proof (fun x => RD_fin (K:=K) uw d b (phi : N -> F) l x) as Hfin.
    destruct (Z.eq_dec (gr d i) (gr d j + 1)) as [E|Hne].
    - pose proof (lr_nodup m Hl) as Hnd. rewrite (@pair_filter K (rev_ord F) rN rp cut (gr d) 1%Z lr i j Hnd cut_graded cut_fin Hj). rewrite (@pair_filter K (rev_ord F) rN rp RDm (gr d) 1%Z lr i j Hnd Hg Hfin Hj).
      apply is_pair_ext. intros c Hc r. apply filter_In in Hc. destruct Hc as [Hc Ec]. apply Z.eqb_eq in Ec.
      unfold cut. destruct (in_dec _ r lr) as [|Hno]; auto. destruct (fscalar_dec (RDm c r)) as [|Hn]; auto. exfalso. apply Hno.
      apply (lr_in m Hl) in Hi, Hc. destruct Hi as (t & Ht & Hlt & ->). destruct Hc as (s & Hs & Hls & ->).
      apply (@RD_den_nz K F uw d m Hm Hfit b) in Hn; auto. destruct Hn as (u & k & Hu & Hf & ->). apply (lr_in m Hl). exists u. split; auto. split; auto.
      rewrite (facet_length Hf). rewrite !gr_code in * by auto. lia.
    - split; intros Hp; exfalso; apply Hne; [exact (pair_grade cut_fin cut_graded Hp)|exact (pair_grade Hfin Hg Hp)].
  Qed.
  Lemma homology_pairs (i j : rips_index) : In i l -> In j l ->
    (is_pair (phi : rips_index -> F) l BDm i j <-> is_pair rp lr RDm (Reverse j : rN) (Reverse i : rN)).
  Proof.
    intros Hi Hj. destruct (@C34_duality_intrinsic K rips_index F phi l BDm cut) with (g := dim_of) (e := (-1)%Z) as [HP _].
    - apply all_cells_nodup; auto.
    - intros c r Hc Hn. apply (@before_in rips_index l r c). apply BD_before; auto.
    - intros c r Hc Hn. unfold cut in Hn. destruct (in_dec _ r lr) as [|]; [auto|congruence].
    - intros c r Hc Hr. unfold cut. destruct (in_dec _ (Reverse c : rN) lr) as [_|Hno]; [|exfalso; apply Hno; apply (rev_basis_in (C:=rips_index) l); exact Hc].
      apply l_cells in Hc, Hr. destruct Hc as (t & Ht & Hlt & ->). destruct Hr as (s & Hs & Hls & ->).
      rewrite (@RD_den K F uw d m Hm Hfit b) by auto. rewrite BD_den by auto. reflexivity.
    - exact BD_graded.
    - exact BD_order.
    - rewrite (HP i j Hi Hj). apply cut_pairs; apply (rev_basis_in (C:=rips_index) l); auto.
  Qed.
  Lemma BD_rows L : covers_simplices n (m + 2) L -> length (row_set (m_col BD) l) <= length L.
  Proof.
    intros HL. apply NoDup_incl_length; [apply NoDup_nodup|].
    intros r Hr. unfold row_set in Hr. apply nodup_In in Hr. apply in_flat_map in Hr. destruct Hr as (c & Hc & Hr).
    apply l_cells in Hc. destruct Hc as (t & Ht & Hlt & ->). rewrite BD_col in Hr by auto.
    apply in_map_iff in Hr. destruct Hr as ([k r'] & E & Hr). simpl in E. subst r'. apply face_terms_in in Hr. destruct Hr as (i & s & Hf & Hne & -> & _).
    apply HL; [eapply facet_simplex; eauto|]. pose proof (facet_length Hf). lia.
  Qed.
End Homology.

(** The homology run has the cohomology pairs whose death is in the basis, exchanged; its essential classes are
    the cohomological one and the simplices of top dimension that die outside the basis. *)
Theorem C44_homology_same_pairs :
  forall (HI HI' : heaps) (K : coeffT) (F : ordT) (uw : N) (z : F) (d : list (list F)) (max_dim : nat),
  rips_matrix z d -> 1 <= max_dim -> codes_fit uw (length d) (max_dim + 2) ->
  forall (L : list N) (fuel fuel' : nat), covers_simplices (length d) (max_dim + 2) L -> length L < fuel -> length L < fuel' ->
  exists rc dg mat sb v dgh,
    rips_cohomology HI (K:=K) fuel uw z d max_dim = Ok (rc, dg) /\
    build_rips_boundary_matrix (K:=K) uw z d max_dim = Ok (mat, sb) /\
    standard_algo_with_diagram HI' fuel' mat (sb_total sb) false = Ok (v, dgh) /\
    NoDup (pairings dgh) /\ NoDup (essential dgh) /\
    (forall i j, In (i, j) (pairings dgh) <->
       In (Reverse j, Reverse i) (pairings dg) /\
       exists t, simplex (length d) t /\ length t <= max_dim + 1 /\ j = code (length d) t) /\
    (forall c, In c (essential dgh) <->
       In (Reverse c) (essential dg) \/
       exists t, simplex (length d) t /\ length t = max_dim + 2 /\ In (Reverse (code (length d) t), Reverse c) (pairings dg)).
Proof.
  intros HI HI' K F uw z d m Hd Hm Hfit L fuel fuel' HL Hfuel Hfuel'.
  pose proof (some_phi_ok Hd) as Hp0. set (phi := some_phi z d) in *. pose proof (@all_cells_order F z d m Hd Hm _ Hp0) as Hl.
  pose proof (@rips_block_complex K F uw z d m Hd Hm Hfit _ Hp0 (tb z d m)) as HB.
  assert (Hrows : length (row_set (m_col (RD (K:=K) uw d (tb z d m))) (concat (rblocks z d m))) < fuel).
  { eapply Nat.le_lt_trans; [|exact Hfuel]. apply (@RD_rows K F uw d m Hm Hfit _ _ L HL). intros c Hc. apply rblocks_in in Hc; auto. }
  destruct (@C32_clearing_intrinsic HI K rN (rev_ord F) _ _ _ _ _ HB fuel Hrows) as (rc & dg & E & N1 & N2 & H).
  destruct (H (rev_basis (all_cells z d m)) (lr_nodup m Hl) (lr_blocks z Hm Hl) (@lr_before F z d m Hd Hm _ Hp0 _ Hl)) as [HP HE]. clear H.
  destruct (@C44_diagram_shape HI K F uw z d m Hd Hm Hfit L fuel HL Hfuel) as (rc' & dg' & E' & S1 & S2 & S3 & S4).
  assert (E2 : rips_cohomology HI (K:=K) fuel uw z d m = Ok (rc, dg)) by (rewrite run_unfold by auto; exact E).
  rewrite E2 in E'. injection E' as <- <-.
  pose proof (@BD_square K F uw z d m Hd Hm Hfit (tb z d m) phi Hp0) as Hsq.
  pose proof (@BD_before K F uw z d m Hd Hm Hfit (tb z d m) phi Hp0) as Hbef.
  assert (Hrows' : length (row_set (m_col (BD (K:=K) uw d (tb z d m))) (all_cells z d m)) < fuel').
  { eapply Nat.le_lt_trans; [|exact Hfuel']. apply (@BD_rows K F uw z d m Hm Hfit (tb z d m) L HL). }
  destruct (std_diagram HI' Hsq Hrows' false) as (v & dgh & E3 & _ & _ & N4 & N3 & HPh & HEh & _).
  assert (HEh' := HEh (fun i j _ Hj Hp => lower_pairs_before Hsq Hbef Hj Hp)). clear HEh.
  pose proof (@homology_pairs K F uw z d m Hd Hm Hfit (tb z d m) phi Hp0) as HH.
  pose proof (@l_cells F z d m Hm) as Hcells.
  assert (Hrl : forall c, In (Reverse c : rN) (rev_basis (all_cells z d m)) <-> In c (all_cells z d m)) by (intros c; apply (rev_basis_in (C:=rips_index))).
  assert (Hrowl : forall i j, is_pair (phi : rips_index -> F) (all_cells z d m : list rips_index) (mden (m_col (BD (K:=K) uw d (tb z d m)))) i j -> In i (all_cells z d m)).
  { intros i j. apply (@pair_rows_in K F rips_index). intros c r Hc Hn. apply (@before_in rips_index (all_cells z d m) r c). apply Hbef; auto. }
  assert (HPP : forall i j, In (i, j) (pairings dgh) <->
       In (Reverse j, Reverse i) (pairings dg) /\ exists t, simplex (length d) t /\ length t <= m + 1 /\ j = code (length d) t).
  { intros i j. rewrite HPh, HP. rewrite Hrl. split.
    - intros [Hj Hij]. assert (Hi := Hrowl _ _ Hij). split; [|apply Hcells; auto]. split; auto. apply HH; auto.
    - intros [[Hi Hij] Ht]. apply Hcells in Ht. split; auto. apply HH; auto. }
  exists rc, dg, (BD (K:=K) uw d (tb z d m)), (rips_split (rbases z d m)), v, dgh.
  split; [exact E2|]. split; [unfold build_rips_boundary_matrix; rewrite built by auto; reflexivity|]. split; [exact E3|].
  split; auto. split; auto. split; [exact HPP|].
  intros c. rewrite HEh'.
  rewrite (@ess_iff K F rips_index phi (all_cells z d m) _ (all_cells_nodup z d Hm)).
  2:{ intros x r Hx Hn. apply (@before_in rips_index (all_cells z d m) r x). apply Hbef; auto. }
  split.
  - intros (Hc & Hnd & Hnb). pose proof Hc as Hc'. apply Hcells in Hc'. destruct Hc' as (s & Hs & Hls & ->).
    destruct (S2 s Hs Hls) as (Hcase & _ & _). destruct Hcase as [->|[(i & Hi)|(j & Hj)]].
    + left. rewrite S4. destruct (Nat.eqb_spec (length d) 0) as [E0|_]; [|simpl; auto]. exfalso. destruct Hs as (_ & _ & Hb). inversion Hb; lia.
    + right. destruct (S1 _ _ Hi) as (s' & t & fs & ft & Hs' & Ht & _ & Hlt & Es & Et & _). apply (f_equal unrev) in Es. cbn [unrev] in Es. apply code_inj in Es; [|apply Hs|apply Hs']. subst s'.
      subst i. exists t. split; auto. split; auto. destruct (Nat.eq_dec (length t) (m + 2)) as [|Hne]; auto. exfalso.
      assert (Htl : In (code (length d) t) (all_cells z d m)) by (apply Hcells; exists t; split; auto; split; auto; lia).
      apply (Hnb (code (length d) t)); auto. apply HPh. apply HPP. split; auto. apply Hcells. auto.
    + exfalso. destruct j as [j]. assert (Hjl : In (j : N) (all_cells z d m)) by (apply HP in Hj; destruct Hj as [Hj _]; apply Hrl; exact Hj).
      apply (Hnd j Hjl). apply HPh. apply HPP. split; auto. exists s. auto.
  - intros [He|(t & Ht & Hlt & Hp)].
    + rewrite S4 in He. destruct (Nat.eqb_spec (length d) 0) as [E0|Hn0]; [destruct He|]. destruct He as [He|[]]. apply (f_equal unrev) in He. cbn [unrev] in He. subst c.
      assert (Hs0 : simplex (length d) [0]) by (split; [discriminate|split; repeat constructor; lia]).
      destruct (S2 [0] Hs0 ltac:(simpl; lia)) as (_ & _ & Hno). specialize (Hno eq_refl).
      split; [apply Hcells; exists [0]; split; auto; split; auto; simpl; lia|]. split; intros k Hk Hp.
      * assert (Hin : In (k, code (length d) [0]) (pairings dgh)) by (apply HPh; split; auto; apply Hcells; exists [0]; split; auto; split; auto; simpl; lia).
        apply HPP in Hin. destruct Hin as [Hin _]. apply Hno in Hin. cbn [fst snd] in Hin. tauto.
      * assert (Hin : In (code (length d) [0] : rips_index, k) (pairings dgh)) by (apply HPh; auto).
        apply HPP in Hin. destruct Hin as [Hin _]. apply Hno in Hin. cbn [fst snd] in Hin. tauto.
    + destruct (S1 _ _ Hp) as (s & t' & fs & ft & Hs & Ht' & Hls & Hlt' & Es & Et & _). apply (f_equal unrev) in Es. cbn [unrev] in Es. subst c.
      assert (Hcl : In (code (length d) s) (all_cells z d m)) by (apply Hcells; eauto).
      split; auto. destruct (S2 s Hs Hls) as (_ & Hnot & _). split; intros k Hk Hpk.
      * assert (Hin : In (k, code (length d) s) (pairings dgh)) by (apply HPh; auto). apply HPP in Hin. destruct Hin as [Hin _]. apply Hnot. split; eauto.
      * assert (Hin : In (code (length d) s : rips_index, k) (pairings dgh)) by (apply HPh; auto). apply HPP in Hin. destruct Hin as [Hin (u & Hu & Hlu & Eu)].
        assert (Eq : Reverse (code (length d) t) = Reverse k) by (apply (S3 _ _ _ _ Hp Hin); auto). apply (f_equal unrev) in Eq. cbn [unrev] in Eq. rewrite Eu in Eq.
        apply code_inj in Eq; [|apply Ht|apply Hu]. subst u. lia.
Qed.
Print Assumptions C44_homology_same_pairs.

(** ** Four points on a line at 0, 1, 3, 7 *)
Example C44_ex_hyps : rips_matrix (0 : nat_ord) line4 /\ codes_fit (2 ^ 64) (length line4) (2 + 2) /\
  covers_simplices (length line4) (2 + 2) (map N.of_nat (seq 0 625)).
Proof.
  split; [apply line4_rips|]. split; [apply line4_fit; lia|]. intros s (Hne & _ & Hb) Hl. apply in_map_iff.
  exists (N.to_nat (code (length line4) s)). split; [apply N2Nat.id|]. apply in_seq. split; [lia|].
  pose proof (code_bound Hb) as B. 
  assert (((N.of_nat (length line4) + 1) ^ N.of_nat (length s) <= (N.of_nat (length line4) + 1) ^ 4)%N) by (apply N.pow_le_mono_r; [discriminate|lia]).
  change ((N.of_nat (length line4) + 1) ^ 4)%N with 625%N in *. lia.
Qed.
Example C44_ex : 
  exists rc, rips_cohomology list_heaps (K:=Z3_coeff) 700 (2 ^ 64) (0 : nat_ord) line4 2 = Ok (rc, @Diagram rN
    [Reverse (code 4 [0])]
    [(Reverse (code 4 [0; 1; 2; 3]), Reverse (code 4 [0; 2; 3]));
     (Reverse (code 4 [0; 1; 2]), Reverse (code 4 [0; 2]));
     (Reverse (code 4 [1; 2; 3]), Reverse (code 4 [1; 3]));
     (Reverse (code 4 [0; 1; 3]), Reverse (code 4 [0; 3]));
     (Reverse (code 4 [0; 1]), Reverse (code 4 [1]));
     (Reverse (code 4 [1; 2]), Reverse (code 4 [2]));
     (Reverse (code 4 [2; 3]), Reverse (code 4 [3]))]).
Proof. eexists. vm_compute. reflexivity. Qed.
