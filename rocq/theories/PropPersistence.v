(** Property theorems C52-C53: the diagrams are the persistence barcodes, with representative cycles read off
    the returned matrices. *)
From Verif Require Import Base Fields FieldsFacts Spec LinAlg Columns Matrices SpecMat MatricesFacts Reduction StandardProofs ReadOffProofs Graded StandardResults ClearingProofs PropStandard PropClearing Examples SpecPH Persistence BettiUnique.
Set Implicit Arguments.

(** What it means for the lists [E] (unpaired) and [P] (pairs) with returned columns [V] and reduced columns [R] to be
    the barcode of the filtered complex [(l, D)]: each class has an explicit representative cycle present from its
    birth, those of pairs bound from their deaths on, and at any times [s], [t] and in any degree those alive are a
    basis of the image of H_n(K_s) in H_n(K_t). *)
Definition is_barcode {K : coeffT} {C F : ordT} (phi : C -> F) (dim : C -> Z) (deg : Z) (l : list C) (D : C -> vec K C)
    (E : list C) (P : list (C * C)) (V R : C -> vec K C) : Prop :=
  exists Z : C -> vec K C,
    (forall c, In c E -> (forall r, Z c r = V c r) /\ cycle_at phi dim l D (dim c) (phi c) (Z c)) /\
    (forall i j, In (i, j) P -> (forall r, Z i r = R j r) /\
       cycle_at phi dim l D (dim i) (phi i) (Z i) /\ boundary_at phi dim deg l D (dim i) (phi j) (Z i)) /\
    forall n s t, persistent_basis phi dim deg l D n s t (alive phi dim E P n s t) Z.

Lemma barcode_betti {K : coeffT} {C F : ordT} (phi : C -> F) dim deg l (D : C -> vec K C) E P V R :
  is_barcode phi dim deg l D E P V R ->
  forall n s t k, persistent_betti phi dim deg l D n s t k <-> k = length (alive phi dim E P n s t).
Proof.
  intros (Z & _ & _ & H) n s t k.
  assert (Hb : persistent_betti phi dim deg l D n s t (length (alive phi dim E P n s t))) by (exists C, (alive phi dim E P n s t), Z; auto).
  split; [intros Hk; eapply betti_unique; eauto|intros ->; auto].
Qed.

Lemma std_barcode :
  forall (HI : heaps) (K : coeffT) (C F : ordT) (phi : C -> F) (D : fmatrix K C C F) (b : basis C) (l : list C),
  square_matrix phi D b l ->
  forall (dim : C -> Z) (deg : Z) (reverse_order : bool),
  let Dm := mden (m_col D) in
  complex l Dm -> graded dim deg l Dm -> graded_order phi dim l ->
  (forall i j, In i l -> In j l -> is_pair phi l Dm i j -> if reverse_order then before l j i else before l i j) ->
  forall fuel, length (row_set (m_col D) l) < fuel ->
  exists v dg, standard_algo_with_diagram HI fuel D b reverse_order = Ok (v, dg) /\
    is_barcode phi dim deg l Dm (essential dg) (pairings dg)
      (mden (mapvec_column v)) (mden (product (m_col D) (mapvec_column v))).
Proof.
  intros HI K C F phi D b l Hsq g e ro Dm Hcx Hg HO Hord fuel Hf.
  destruct (std_diagram HI Hsq Hf ro) as (v & dg & E & HV & HR & N1 & N2 & HP & HE & _).
  exists v, dg. split; auto. specialize (HE Hord).
  pose proof (square_by_ref Hsq) as Hsq'.
  assert (Ev : standard_algo HI fuel (by_ref D) b = Ok v).
  { unfold standard_algo_with_diagram in E. apply bind_Ok in E. destruct E as (w & Ew & E). apply bind_Ok in E. destruct E as (d & _ & [= <- _]). auto. }
  pose proof (std_support HI Hsq' Hf Ev) as Hsup.
  assert (Hhom : forall j x, In j l -> stored v j x <> f0 -> In x l /\ g x = g j).
  { intros j x Hj Hn. destruct (Hsup j Hj) as (lv & Hgv & Hin). unfold stored, mden, mapvec_column in Hn. rewrite Hgv in Hn. cbn [unwrap] in Hn.
    apply coef_in in Hn. destruct Hn as [k Hk]. split; [eauto|].
    destruct Hsq' as (H1 & H2 & H3). apply (@standard_algo_homog HI K C F phi (by_ref D) b l H1 H2 H3 fuel v Hf Ev g e Hg j lv Hgv k x Hk). }
  destruct (@interval_decomposition K F C phi g e l Dm (stored v) (proj1 Hsq) Hcx Hg HO HV HR _ _ N1 N2 HP HE Hhom) as (Z & Z1 & Z2 & Z3).
  exists Z. split; [exact Z1|]. split; [|exact Z3].
  intros i j Hij. destruct (Z2 i j Hij) as (Z4 & Z5). split; auto. intros r. rewrite Z4. symmetry.
  apply HP in Hij. apply (product_stored Hsq' v j (Hsup j (proj1 Hij))).
Qed.

(** C52: a complex whose cells come after their faces, reduced by the standard algorithm. *)
Theorem C52_diagram_is_barcode :
  forall (HI : heaps) (K : coeffT) (C F : ordT) (phi : C -> F) (D : fmatrix K C C F) (b : basis C) (l : list C),
  square_matrix phi D b l ->
  forall (dim : C -> Z) (deg : Z),
  let Dm := mden (m_col D) in
  complex l Dm -> graded dim deg l Dm -> graded_order phi dim l ->
  (forall c r, In c l -> Dm c r <> f0 -> before l r c) ->
  forall fuel, length (row_set (m_col D) l) < fuel ->
  exists v dg, standard_algo_with_diagram HI fuel D b false = Ok (v, dg) /\
    is_barcode phi dim deg l Dm (essential dg) (pairings dg)
      (mden (mapvec_column v)) (mden (product (m_col D) (mapvec_column v))).
Proof.
  intros HI K C F phi D b l Hsq g e Dm Hcx Hg HO HU fuel Hf. apply std_barcode; auto.
  intros i j _. apply (lower_pairs_before Hsq HU).
Qed.
Print Assumptions C52_diagram_is_barcode.

(** C52: a basis listing whole dimensions, read off in either direction. *)
Theorem C52_diagram_is_barcode_blocks :
  forall (HI : heaps) (K : coeffT) (C F : ordT) (phi : C -> F) (D : fmatrix K C C F) (b : basis C) (l : list C),
  square_matrix phi D b l ->
  forall (dim : C -> Z) (deg : Z) (reverse_order : bool),
  let Dm := mden (m_col D) in
  complex l Dm -> graded dim deg l Dm -> graded_order phi dim l ->
  (forall r c, In r l -> In c l -> dim r = (dim c + deg)%Z -> if reverse_order then before l c r else before l r c) ->
  forall fuel, length (row_set (m_col D) l) < fuel ->
  exists v dg, standard_algo_with_diagram HI fuel D b reverse_order = Ok (v, dg) /\
    is_barcode phi dim deg l Dm (essential dg) (pairings dg)
      (mden (mapvec_column v)) (mden (product (m_col D) (mapvec_column v))).
Proof.
  intros HI K C F phi D b l Hsq g e ro Dm Hcx Hg HO Hblk fuel Hf. apply std_barcode; auto.
  intros i j Hi Hj Hp. apply Hblk; auto. eapply graded_pairs; eauto.
Qed.
Print Assumptions C52_diagram_is_barcode_blocks.

(** C52: the number of bars alive is the dimension of the image of H_n(K_s) in H_n(K_t), whatever basis is used to
    count that dimension. *)
Theorem C52_bars_count_persistent_betti :
  forall (HI : heaps) (K : coeffT) (C F : ordT) (phi : C -> F) (D : fmatrix K C C F) (b : basis C) (l : list C),
  square_matrix phi D b l ->
  forall (dim : C -> Z) (deg : Z),
  let Dm := mden (m_col D) in
  complex l Dm -> graded dim deg l Dm -> graded_order phi dim l ->
  (forall c r, In c l -> Dm c r <> f0 -> before l r c) ->
  forall fuel, length (row_set (m_col D) l) < fuel ->
  exists v dg, standard_algo_with_diagram HI fuel D b false = Ok (v, dg) /\
    forall n s t k, persistent_betti phi dim deg l Dm n s t k <->
      k = length (alive phi dim (essential dg) (pairings dg) n s t).
Proof.
  intros HI K C F phi D b l Hsq g e Dm Hcx Hg HO HU fuel Hf.
  destruct (C52_diagram_is_barcode HI Hsq Hcx Hg HO HU Hf) as (v & dg & E & H). exists v, dg. split; auto.
  intros n s t k. eapply barcode_betti; eauto.
Qed.
Print Assumptions C52_bars_count_persistent_betti.

(** the triangle, whose edge 12 and face come in at time 2: from 0 to 0 three components survive, from 1 to 1 one,
    and no one-dimensional class is ever seen *)
Example C52_ex_hyps : square_matrix tri_fil tri_D tri_b tri_l /\
  complex tri_l (mden (m_col tri_D)) /\ graded tri_dim (-1) tri_l (mden (m_col tri_D)) /\
  graded_order (F:=nat_ord) tri_fil tri_dim tri_l /\
  (forall c r, In c tri_l -> mden (m_col tri_D) c r <> f0 -> before tri_l r c) /\
  length (row_set (m_col tri_D) tri_l) < 7.
Proof.
  split; [exact tri_square|]. destruct C27_ex as (H1 & H2 & H3). split; auto. split; auto. split; auto.
  split; [apply C26_ex|]. vm_compute. auto 10.
Qed.
Example C52_ex : exists v dg, standard_algo_with_diagram list_heaps 7 tri_D tri_b false = Ok (v, dg) /\
  (forall k, persistent_betti (F:=nat_ord) tri_fil tri_dim (-1) tri_l (mden (m_col tri_D)) 0 (0 : nat_ord) (0 : nat_ord) k <-> k = 3) /\
  (forall k, persistent_betti (F:=nat_ord) tri_fil tri_dim (-1) tri_l (mden (m_col tri_D)) 0 (0 : nat_ord) (1 : nat_ord) k <-> k = 1) /\
  (forall k, persistent_betti (F:=nat_ord) tri_fil tri_dim (-1) tri_l (mden (m_col tri_D)) 1 (2 : nat_ord) (2 : nat_ord) k <-> k = 0).
Proof.
  destruct C52_ex_hyps as (H0 & H1 & H2 & H3 & H4 & H5).
  destruct (C52_bars_count_persistent_betti list_heaps H0 H1 H2 H3 H4 H5) as (v & dg & E & H).
  exists v, dg. split; auto.
  assert (Edg : dg = @Diagram nat_ord [0] [(5, 6); (2, 4); (1, 3)]).
  { destruct C26_ex as (_ & _ & v' & E'). rewrite E in E'. congruence. }
  rewrite Edg in H. split; [|split]; intros k; rewrite H; reflexivity.
Qed.

(** C53: the same for the clearing algorithm on a complex split by dimension.  [dim] is constant on each block and
    different on different blocks; the columns of the last block are zero. *)
Theorem C53_clearing_diagram_is_barcode :
  forall (HI : heaps) (K : coeffT) (C F : ordT) (phi : C -> F) (D : fmatrix K C C F) (sb : split_basis C)
    (dims : list nat) (blocks : list (list C)),
  block_complex phi D sb dims blocks ->
  let l := concat blocks in
  let Dm := mden (m_col D) in
  (forall pre blk, blocks = pre ++ [blk] -> forall c r, In c blk -> Dm c r = f0) ->
  forall (dim : C -> Z) (deg : Z),
  (forall x y, In x l -> In y l -> (dim x = dim y <-> exists blk, In blk blocks /\ In x blk /\ In y blk)) ->
  graded dim deg l Dm ->
  forall fuel, length (row_set (m_col D) l) < fuel ->
  exists rc dg, build_with_diagram HI fuel D sb dims = Ok (rc, dg) /\
    is_barcode phi dim deg l Dm (essential dg) (pairings dg)
      (mden (crm_column (m_col D) rc)) (mden (product (m_col D) (crm_column (m_col D) rc))) /\
    forall n s t k, persistent_betti phi dim deg l Dm n s t k <->
      k = length (alive phi dim (essential dg) (pairings dg) n s t).
Proof.
  intros HI K C F phi D sb dims blocks HB l Dm Hlast g e Hdim Hg fuel Hf.
  destruct (build_spec HI HB Hf) as (rc & dg & E & Hgi). exists rc, dg. split; auto.
  match goal with |- ?A /\ _ => assert (HA : A); [|split; [exact HA|intros n s t k; eapply barcode_betti; exact HA]] end.
  pose proof HB as (B1 & B2 & B3 & B4 & B5 & B6).
  assert (Hblk : forall c, In c l -> exists pre blk post, blocks = pre ++ blk :: post /\ In c blk).
  { intros c Hc. apply in_concat in Hc. destruct Hc as (blk & Hb & Hc). apply in_split in Hb. destruct Hb as (pre & post & Eb). eauto 10. }
  assert (Hcx : complex l Dm).
  { split.
    - intros c r Hc Hn. destruct (Hblk c Hc) as (pre & blk & post & Eb & Hcb). destruct post as [|next post].
      + exfalso. apply Hn. eapply Hlast; eauto.
      + assert (Hr : In r next) by exact (dm_next HB _ _ _ _ _ _ Eb Hcb Hn). apply in_concat. exists next. split; auto. rewrite Eb. apply in_app_iff. simpl. auto.
    - intros c Hc r. destruct (Hblk c Hc) as (pre & blk & post & Eb & Hcb). destruct post as [|next post].
      + apply lincomb_0. intros x _. left. eapply Hlast; eauto.
      + assert (En : blocks = (pre ++ [blk]) ++ next :: post) by (rewrite <- app_assoc; auto).
        rewrite (@lincomb_incl K C C next l).
        * destruct (B5 _ _ _ _ Eb c Hcb) as [_ Hz]. apply Hz.
        * exact (block_nodup HB _ _ _ En).
        * exact B1.
        * exact (block_incl _ _ _ En).
        * intros x _ Hx. destruct (fscalar_dec (Dm c x)) as [|Hn]; auto. exfalso. apply Hx. exact (dm_next HB _ _ _ _ _ _ Eb Hcb Hn). }
  assert (Hbef : forall blk x y, In blk blocks -> before blk x y -> before l x y).
  { intros blk x y Hb (A & B & G & Eb). apply in_split in Hb. destruct Hb as (pre & post & Ebl). unfold l. rewrite Ebl, concat_app. simpl. rewrite Eb.
    exists (concat pre ++ A), B, (G ++ concat post). repeat (rewrite <- ?app_assoc; simpl). reflexivity. }
  assert (HO : graded_order phi g l).
  { intros x y Hxy Eg. pose proof (before_in Hxy) as [Hx Hy]. apply Hdim in Eg; auto. destruct Eg as (blk & Hb & Hxb & Hyb).
    apply (B4 blk); auto. destruct (@before_total C _ _ _ Hxb Hyb) as [->|[H|H]]; auto.
    - exfalso. exact (before_asym B1 Hxy Hxy).
    - exfalso. apply (Hbef _ _ _ Hb) in H. exact (before_asym B1 Hxy H). }
  assert (Hsame : forall c, In c l <-> In c (concat blocks)) by (intros; reflexivity).
  pose proof (clr_triangular Hgi B1 Hsame Hbef) as HV. pose proof (clr_reduced HB Hgi B1 Hsame) as HR.
  destruct (clr_pairs HB Hgi B1 Hsame Hbef) as [N2 HP]. destruct (clr_essential HB Hgi B1 Hsame Hbef) as [N1 HE].
  assert (Hhom : forall j x, In j l -> vden D rc j x <> f0 -> In x l /\ g x = g j).
  { intros j x Hj Hn. pose proof Hj as Hj'. apply in_concat in Hj'. destruct Hj' as (blk & Hb & Hjb).
    destruct (clr_cols Hgi _ _ Hb Hjb) as (lv & _ & Ev & Hin & _). rewrite Ev in Hn. apply coef_in in Hn. destruct Hn as [k Hk]. apply Hin in Hk.
    assert (Hx : In x l) by (apply in_concat; eauto). split; auto. apply Hdim; eauto. }
  destruct (@interval_decomposition K F C phi g e l Dm (vden D rc) B1 Hcx Hg HO HV HR _ _ N1 N2 HP HE Hhom) as (Z & Z1 & Z2 & Z3).
  exists Z. split; [exact Z1|]. split; [|exact Z3].
  intros i j Hij. destruct (Z2 i j Hij) as (Z4 & Z5). split; auto. intros r. rewrite Z4. symmetry.
  apply HP in Hij. apply (@clr_product K C F phi D sb dims blocks rc dg HB Hgi j). tauto.
Qed.
Print Assumptions C53_clearing_diagram_is_barcode.

Example C53_ex : block_complex (F:=nat_ord) tri_fil tri_D tri_sb [2; 1; 0] tri_blocks /\
  (forall pre blk, tri_blocks = pre ++ [blk] -> forall c r, In c blk -> mden (m_col tri_D) c r = f0) /\
  (forall x y, In x (concat tri_blocks) -> In y (concat tri_blocks) ->
     (tri_dim x = tri_dim y <-> exists blk, In blk tri_blocks /\ In x blk /\ In y blk)) /\
  graded tri_dim (-1) (concat tri_blocks) (mden (m_col tri_D)).
Proof.
  split; [exact tri_block_complex|]. split; [|split].
  - intros pre blk E c r Hc. change tri_blocks with ([[6]; [3; 4; 5]] ++ [[0; 1; 2]]) in E. apply app_inj_tail in E. destruct E as [_ <-].
    simpl in Hc. destruct Hc as [<-|[<-|[<-|[]]]]; reflexivity.
  - intros x y Hx Hy. simpl in Hx, Hy. split.
    + intros E. destruct Hx as [<-|[<-|[<-|[<-|[<-|[<-|[<-|[]]]]]]]]; destruct Hy as [<-|[<-|[<-|[<-|[<-|[<-|[<-|[]]]]]]]];
        vm_compute in E; try discriminate; first [exists [0; 1; 2]; simpl; tauto|exists [3; 4; 5]; simpl; tauto|exists [6]; simpl; tauto].
    + intros (blk & Hb & H1 & H2). simpl in Hb. destruct Hb as [<-|[<-|[<-|[]]]]; simpl in H1, H2.
      * destruct H1 as [<-|[]], H2 as [<-|[]]. reflexivity.
      * destruct H1 as [<-|[<-|[<-|[]]]], H2 as [<-|[<-|[<-|[]]]]; reflexivity.
      * destruct H1 as [<-|[<-|[<-|[]]]], H2 as [<-|[<-|[<-|[]]]]; reflexivity.
  - intros c r Hc. apply tri_graded. simpl in Hc. apply in_seq. change nat in c. intuition lia.
Qed.
