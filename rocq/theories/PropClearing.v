(** Property theorems C30-C33: the clearing algorithm. *)
From Verif Require Import Base Fields FieldsFacts Spec LinAlg Columns ColumnsFacts Matrices SpecMat MatricesFacts Reduction LoopProofs StandardProofs ReadOffProofs Graded StandardResults Examples ClearingProofs.
From Coq Require Import Ring Field.

(** C30: on a graded complex presented dimension by dimension, [build_with_diagram] returns (with at
    most (number of distinct rows + 1) reduction steps per column) and every column of the returned V
    can be requested. *)
Theorem C30_clearing_terminates :
  forall (HI : heaps) (K : coeffT) (C F : ordT) (phi : C -> F) (D : fmatrix K C C F) (sb : split_basis C)
    (dims : list nat) (blocks : list (list C)),
  block_complex phi D sb dims blocks ->
  forall fuel, length (row_set (m_col D) (concat blocks)) < fuel ->
  exists rc dg, build_with_diagram HI fuel D sb dims = Ok (rc, dg) /\
    forall c, In c (concat blocks) ->
      (exists col, crm_column (m_col D) rc c = Ok col) /\
      (exists col, product (m_col D) (crm_column (m_col D) rc) c = Ok col) /\
      exists a, col_is_cycle HI D rc c = Ok a.
Proof.
  intros HI K C F phi D sb dims blocks HB fuel Hf.
  destruct (build_spec HI HB Hf) as (rc & dg & E & Hg). exists rc, dg. split; auto. intros c Hc.
  pose proof Hc as Hc'. apply in_concat in Hc'. destruct Hc' as (blk & Hb & Hcb).
  destruct (clr_cols Hg _ _ Hb Hcb) as (lv & Ec & _ & Hin & _). split; [eauto|]. split.
  - unfold product. rewrite Ec. cbn [bind]. destruct (@matrix_col_product_ok K C C (m_col D) lv) as (t & Et & _); [|eauto].
    intros k x Hx. destruct HB as (_ & _ & HD & _). destruct (HD x) as (t & es & H1 & _); eauto. apply in_concat. eauto.
  - destruct (clr_is_cycle HI HB Hg _ Hc) as (a & Ea & _). eauto.
Qed.
Print Assumptions C30_clearing_terminates.

Lemma clr_product {K : coeffT} {C F : ordT} (phi : C -> F) (D : fmatrix K C C F) sb dims blocks rc dg :
  block_complex phi D sb dims blocks -> ginv phi D blocks blocks [] (Builder dg rc) ->
  forall c, In c (concat blocks) -> forall r,
    mden (product (m_col D) (crm_column (m_col D) rc)) c r = rden D blocks rc c r.
Proof.
  intros HB Hg c Hc r. pose proof Hc as Hc'. apply in_concat in Hc'. destruct Hc' as (blk & Hb & Hcb).
  destruct (clr_cols Hg _ _ Hb Hcb) as (lv & Ec & Hv & Hin & _).
  assert (Hinl : forall k x, In (k, x) lv -> In x (concat blocks)) by (intros k x Hx; apply in_concat; eauto).
  destruct (@matrix_col_product_ok K C C (m_col D) lv) as (t & Et & _ & Hco).
  { intros k x Hx. destruct HB as (_ & _ & HD & _). destruct (HD x) as (t & es & H1 & _); eauto. }
  unfold mden, product. rewrite Ec. cbn [bind]. rewrite Et, Hco.
  rewrite (@coef_combine K C C lv (mden (m_col D)) (concat blocks) r); eauto; [|apply HB].
  symmetry. apply lincomb_ext; intros; auto.
Qed.

(** C31: the returned V and [R = D V], as matrices: V is triangular with non-zero diagonal with respect to
    every listing of the basis that keeps the order inside each dimension, R is reduced; the column
    of V of a birth [i] of a pair [(i, j)] is the column [j] of R, and a cycle; the other columns of V have diagonal 1. *)
Theorem C31_clearing_decomposition :
  forall (HI : heaps) (K : coeffT) (C F : ordT) (phi : C -> F) (D : fmatrix K C C F) (sb : split_basis C)
    (dims : list nat) (blocks : list (list C)),
  block_complex phi D sb dims blocks ->
  forall fuel, length (row_set (m_col D) (concat blocks)) < fuel ->
  exists rc dg, build_with_diagram HI fuel D sb dims = Ok (rc, dg) /\
    let V := mden (crm_column (m_col D) rc) in
    let R := mden (product (m_col D) (crm_column (m_col D) rc)) in
    (forall l', NoDup l' -> (forall c, In c l' <-> In c (concat blocks)) ->
       (forall blk x y, In blk blocks -> before blk x y -> before l' x y) ->
       triangular l' V /\ reduced phi l' R /\
       forall j, In j l' -> forall r, R j r = lincomb l' (V j) (mden (m_col D)) r) /\
    (forall i j, In i (concat blocks) -> In j (concat blocks) -> leading phi (R j) i -> 
       (forall x, V i x = R j x) /\ vzero (R i)) /\
    (forall i, In i (concat blocks) -> (forall j, In j (concat blocks) -> ~ leading phi (R j) i) -> V i i = f1).
Proof.
  intros HI K C F phi D sb dims blocks HB fuel Hf.
  destruct (build_spec HI HB Hf) as (rc & dg & E & Hg). exists rc, dg. split; auto. intros V R.
  pose proof (@clr_product K C F phi D sb dims blocks rc dg HB Hg) as HR. fold R in HR.
  assert (HL : forall j i, In j (concat blocks) -> (leading phi (R j) i <-> leading phi (rden D blocks rc j) i)).
  { intros j i Hj. split; apply leading_ext; intros r; rewrite HR; auto. }
  split; [|split].
  - intros l' Hl' Hs Ho. split; [eapply clr_triangular; eauto|].
    assert (HR' : forall j, In j l' -> forall r, R j r = lincomb l' (V j) (mden (m_col D)) r).
    { intros j Hj r. rewrite HR by (apply Hs; auto). symmetry. eapply lincomb_l'; eauto. }
    split; auto. assert (Hr : reduced phi l' (fun j => lincomb l' (V j) (mden (m_col D)))) by (eapply clr_reduced; eauto).
    intros j k i Hj Hk H1 H2. apply (Hr j k i Hj Hk).
    + eapply leading_ext; [|exact H1]. apply HR'; auto.
    + eapply leading_ext; [|exact H2]. apply HR'; auto.
  - intros i j Hi Hj Hlead. apply HL in Hlead; auto.
    destruct (clr_entry HB Hg _ Hi) as [(t & Eg & _)|(j' & Eg & _ & Hlead' & Hz & He)].
    + exfalso. destruct Hg as (_ & G2 & _). assert (map_get i rc = Some (Cleared j)); [|simpl in *; congruence].
      apply G2. rewrite app_nil_r. auto.
    + assert (j' = j).
      { destruct Hg as (_ & G2 & _). assert (map_get i rc = Some (Cleared j)) by (apply G2; rewrite app_nil_r; auto). congruence. }
      subst j'. split; [intros x; rewrite HR by auto; apply He|]. intros r. rewrite HR; auto.
  - intros i Hi Hn. destruct (clr_entry HB Hg _ Hi) as [(t & Eg & Ec & H0 & _)|(j & _ & Hj & Hlead & _)].
    + unfold V, mden. rewrite Ec, coef_app, H0. simpl. rewrite oeqb_refl. reflexivity.
    + exfalso. apply (Hn j Hj). apply HL; auto.
Qed.
Print Assumptions C31_clearing_decomposition.

(** C32: the diagram is the intrinsic one ... *)
Theorem C32_clearing_intrinsic :
  forall (HI : heaps) (K : coeffT) (C F : ordT) (phi : C -> F) (D : fmatrix K C C F) (sb : split_basis C)
    (dims : list nat) (blocks : list (list C)),
  block_complex phi D sb dims blocks ->
  forall fuel, length (row_set (m_col D) (concat blocks)) < fuel ->
  exists rc dg, build_with_diagram HI fuel D sb dims = Ok (rc, dg) /\
    NoDup (pairings dg) /\ NoDup (essential dg) /\
    forall l', NoDup l' -> (forall c, In c l' <-> In c (concat blocks)) ->
      (forall blk x y, In blk blocks -> before blk x y -> before l' x y) ->
      (forall i j, In (i, j) (pairings dg) <-> In j l' /\ is_pair phi l' (mden (m_col D)) i j) /\
      (forall c, In c (essential dg) <-> is_essential phi l' (mden (m_col D)) c).
Proof.
  intros HI K C F phi D sb dims blocks HB fuel Hf.
  destruct (build_spec HI HB Hf) as (rc & dg & E & Hg). exists rc, dg. split; auto.
  split; [apply Hg|]. split; [apply Hg|]. intros l' Hl' Hs Ho. split.
  - eapply clr_pairs; eauto.
  - eapply clr_essential; eauto.
Qed.
Print Assumptions C32_clearing_intrinsic.

(** ... hence that of the standard algorithm, run on any basis object listing the same elements in an order
    compatible with that of each dimension, with the traversal direction that meets births before deaths. *)
Theorem C32_clearing_agrees_with_standard :
  forall (HI HI' : heaps) (K : coeffT) (C F : ordT) (phi : C -> F) (D : fmatrix K C C F) (sb : split_basis C)
    (dims : list nat) (blocks : list (list C)),
  block_complex phi D sb dims blocks ->
  forall (b : basis C) (l' : list C) (reverse_order : bool),
  NoDup l' -> enumerates b l' -> (forall c, In c l' <-> In c (concat blocks)) ->
  (forall blk x y, In blk blocks -> before blk x y -> before l' x y) ->
  (forall pre blk next post c r, blocks = pre ++ blk :: next :: post -> In c blk -> In r next ->
     if reverse_order then before l' c r else before l' r c) ->
  forall fuel fuel', length (row_set (m_col D) (concat blocks)) < fuel -> length (row_set (m_col D) l') < fuel' ->
  exists rc dg v dg',
    build_with_diagram HI fuel D sb dims = Ok (rc, dg) /\
    standard_algo_with_diagram HI' fuel' D b reverse_order = Ok (v, dg') /\
    (forall p, In p (pairings dg) <-> In p (pairings dg')) /\
    (forall c, In c (essential dg) <-> In c (essential dg')).
Proof.
  intros HI HI' K C F phi D sb dims blocks HB b l' ro Hl' Hen Hs Ho Hdir fuel fuel' Hf Hf'.
  destruct (build_spec HI HB Hf) as (rc & dg & E & Hg).
  assert (Hsq : square_matrix phi D b l').
  { split; auto. split; auto. intros c Hc. apply HB. apply Hs. auto. }
  destruct (std_diagram HI' Hsq Hf' ro) as (v & dg' & E' & _ & _ & _ & _ & Hp & He & _).
  destruct (clr_pairs HB Hg Hl' Hs Ho) as [_ Hp']. destruct (clr_essential HB Hg Hl' Hs Ho) as [_ He'].
  exists rc, dg, v, dg'. split; auto. split; auto. split.
  - intros [i j]. rewrite Hp, Hp'. reflexivity.
  - intros c. rewrite He', He; [reflexivity|]. intros i j Hi Hj Hpr.
    assert (Hjl : In j (concat blocks)) by (apply Hs; auto). apply in_concat in Hjl. destruct Hjl as (bk & Hbk & Hjb).
    destruct (clr_cols Hg _ _ Hbk Hjb) as (lv & _ & Hv & Hin & _).
    apply (clr_lead HB Hg Hl' Hs Ho) in Hpr; auto. destruct Hpr as [Hn _]. unfold rden in Hn.
    apply lincomb_nonzero in Hn. destruct Hn as (x & _ & Hx & Hn). rewrite Hv in Hx. apply coef_in in Hx. destruct Hx as [k Hk].
    apply Hin in Hk. apply in_split in Hbk. destruct Hbk as (pre & [|next post] & Eb).
    + exfalso. destruct HB as (_ & _ & _ & _ & _ & Hlast). apply (Hlast _ _ Eb x i Hk Hn). apply Hs. auto.
    + apply (Hdir pre bk next post j i Eb Hjb). exact (@dm_next K C F phi D sb dims blocks HB pre bk next post x i Eb Hk Hn).
Qed.
Print Assumptions C32_clearing_agrees_with_standard.

(** C33 *)
Theorem C33_col_is_cycle :
  forall (HI HI' : heaps) (K : coeffT) (C F : ordT) (phi : C -> F) (D : fmatrix K C C F) (sb : split_basis C)
    (dims : list nat) (blocks : list (list C)),
  block_complex phi D sb dims blocks ->
  forall fuel, length (row_set (m_col D) (concat blocks)) < fuel ->
  exists rc dg, build_with_diagram HI fuel D sb dims = Ok (rc, dg) /\
    forall c, In c (concat blocks) -> exists a, col_is_cycle HI' D rc c = Ok a /\
      (a = true <-> vzero (mden (product (m_col D) (crm_column (m_col D) rc)) c)).
Proof.
  intros HI HI' K C F phi D sb dims blocks HB fuel Hf.
  destruct (build_spec HI HB Hf) as (rc & dg & E & Hg). exists rc, dg. split; auto. intros c Hc.
  destruct (clr_is_cycle HI' HB Hg _ Hc) as (a & Ea & H). exists a. split; auto. rewrite H.
  split; intros Hz r; specialize (Hz r); rewrite (@clr_product K C F phi D sb dims blocks rc dg HB Hg c Hc) in *; auto.
Qed.
Print Assumptions C33_col_is_cycle.

(* ------------------------------------------------------------------ *)
(** ** Non-vacuity: the filled triangle over Z3, dimensions visited downwards *)
Definition list_basis (l : list nat_ord) : basis nat_ord := Basis (length l) (fun i => index l i).
Definition tri_blocks : list (list nat_ord) := [[6]; [3; 4; 5]; [0; 1; 2]].
Definition tri_sb : split_basis nat_ord := SplitBasis tri_b (fun d => do l <- index [[0; 1; 2]; [3; 4; 5]; [6]] d; Ok (list_basis l)).
Lemma list_basis_enum l : enumerates (list_basis l) l.
Proof. split; auto. intros i c H. simpl. unfold index. now rewrite H. Qed.

Example tri_block_complex : block_complex (F:=nat_ord) tri_fil tri_D tri_sb [2; 1; 0] tri_blocks.
Proof.
  refine (conj _ (conj _ (conj _ (conj _ (conj _ _))))).
  - vm_compute. repeat constructor; simpl; intuition discriminate.
  - repeat constructor; eexists; (split; [reflexivity|apply list_basis_enum]).
  - intros c Hc. apply tri_square. simpl in Hc. apply in_seq. simpl. change nat in c. intuition lia.
  - intros blk x y Hb Hxy. pose proof (before_in Hxy) as [Hx Hy]. simpl in Hb.
    assert (Hin : forall z, In z blk -> In z tri_l) by (intros z Hz; apply in_seq; change nat in z; destruct Hb as [<-|[<-|[<-|[]]]]; simpl in Hz; intuition lia).
    apply tri_ordered; auto. apply before_split in Hxy. destruct Hxy as (A & B & E & Hi). change nat in x, y.
    destruct Hb as [<-|[<-|[<-|[]]]];
      (destruct A as [|? [|? [|? [|]]]]; simpl in E; inversion E; subst; simpl in Hi; intuition lia).
  - intros pre blk next post E c Hc.
    assert (Hcase : (blk = [6] /\ next = [3; 4; 5]) \/ (blk = [3; 4; 5] /\ next = [0; 1; 2])).
    { destruct pre as [|? [|? [|? pre]]]; simpl in E; inversion E; subst; auto;
      destruct pre; discriminate. }
    destruct Hcase as [[-> ->]|[-> ->]]; (split; [|]).
    + intros t k r Et Hr. simpl in Hc. destruct Hc as [<-|[]]. vm_compute in Et. injection Et as <-. simpl in Hr. simpl.
      decompose [or] Hr; try tauto; match goal with H : _ = (k, r) |- _ => injection H as _ <- end; auto.
    + intros r. rewrite <- (proj2 tri_complex c); [|simpl in Hc; destruct Hc as [<-|[]]; apply in_seq; lia].
      symmetry. apply lincomb_incl.
      * repeat constructor; simpl; intuition discriminate.
      * apply seq_NoDup.
      * intros z Hz. apply in_seq. simpl in Hz. change nat in z. intuition lia.
      * intros z Hz Hn. destruct Hc as [<-|[]]. apply in_seq in Hz. change nat in z.
        do 7 (destruct z as [|z]; [solve [vm_compute; reflexivity | exfalso; apply Hn; simpl; tauto]|]). lia.
    + intros t k r Et Hr. simpl in Hc. decompose [or] Hc; try tauto; subst c; vm_compute in Et; injection Et as <-; simpl in Hr |- *;
      decompose [or] Hr; try tauto; match goal with H : _ = (k, r) |- _ => injection H as _ <- end; auto.
    + intros r. rewrite <- (proj2 tri_complex c) with (r := r); [|simpl in Hc; apply in_seq; change nat in c; intuition lia].
      symmetry. apply lincomb_incl.
      * repeat constructor; simpl; intuition discriminate.
      * apply seq_NoDup.
      * intros z Hz. apply in_seq. simpl in Hz. change nat in z. intuition lia.
      * intros z Hz Hn. apply in_seq in Hz. change nat in z. simpl in Hc.
        decompose [or] Hc; try tauto; subst c;
        do 7 (destruct z as [|z]; [solve [vm_compute; reflexivity | exfalso; apply Hn; simpl; tauto]|]); lia.
  - intros pre blk E c r Hc Hn. exfalso.
    assert (blk = [0; 1; 2]).
    { destruct pre as [|? [|? [|? pre]]]; simpl in E; inversion E; subst; auto; destruct pre; discriminate. }
    subst blk. apply Hn. simpl in Hc. decompose [or] Hc; try tauto; subst c; reflexivity.
Qed.
Example C30_C33_ex : exists rc, build_with_diagram list_heaps 7 tri_D tri_sb [2; 1; 0] = Ok (rc, @Diagram nat_ord [0] [(2, 4); (1, 3); (5, 6)]) /\
  map_get (5 : nat_ord) rc = Some (Cleared (6 : nat_ord)) /\ col_is_cycle list_heaps tri_D rc 5 = Ok true /\ col_is_cycle list_heaps tri_D rc 4 = Ok false.
Proof. eexists. vm_compute. repeat split; reflexivity. Qed.
(** C31, C32: the birth column 5 of V is the column 6 of R, and the diagram agrees with that of the standard algorithm *)
Example C31_C32_ex : exists rc dg v dg', build_with_diagram list_heaps 7 tri_D tri_sb [2; 1; 0] = Ok (rc, dg) /\
  standard_algo_with_diagram list_heaps 7 tri_D tri_b false = Ok (v, dg') /\
  (forall r, mden (crm_column (m_col tri_D) rc) 5 r = mden (product (m_col tri_D) (crm_column (m_col tri_D) rc)) 6 r) /\
  (forall p, In p (pairings dg) <-> In p (pairings dg')) /\ (forall c, In c (essential dg) <-> In c (essential dg')).
Proof.
  assert (Hin : forall c : nat_ord, In c tri_l <-> In c (concat tri_blocks)).
  { intros c. change nat in c. simpl. tauto. }
  assert (Hb : forall x y : nat, x < y < 7 -> before tri_l x y).
  { intros x y H. exists (seq 0 x), (seq (S x) (y - S x)), (seq (S y) (6 - y)). unfold tri_l.
    replace 7 with (x + (1 + ((y - S x) + (1 + (6 - y))))) by lia. rewrite !seq_app. simpl. repeat f_equal; try lia.
    replace (x + 1 + (y - S x)) with y by lia. replace (y + 1) with (S y) by lia. now replace (x + 1) with (S x) by lia. }
  assert (Ho : forall blk x y, In blk tri_blocks -> before blk x y -> before tri_l x y).
  { intros blk x y Hblk Hxy. pose proof (before_in Hxy) as [Hx Hy]. change nat in x, y. apply Hb. apply before_split in Hxy. destruct Hxy as (A & B & E & Hi).
    simpl in Hblk. destruct Hblk as [<-|[<-|[<-|[]]]];
      (destruct A as [|? [|? [|? [|]]]]; simpl in E; inversion E; subst; simpl in Hi; simpl in Hx, Hy; intuition lia). }
  destruct (C32_clearing_agrees_with_standard list_heaps list_heaps _ _ _ _ _ _ _ _ tri_block_complex tri_b tri_l false
    (proj1 tri_square) (proj1 (proj2 tri_square)) Hin Ho) with (fuel := 7) (fuel' := 7) as (rc & dg & v & dg' & E1 & E2 & H1 & H2); try (vm_compute; lia).
  - intros pre blk next post c r E Hc Hr. change nat in c, r. apply Hb.
    destruct pre as [|? [|? [|? pre]]]; simpl in E; inversion E; subst; simpl in Hc, Hr; try (destruct pre; discriminate); intuition lia.
  - exists rc, dg, v, dg'. split; [exact E1|]. split; [exact E2|]. split; [|auto].
    destruct (C31_clearing_decomposition list_heaps _ _ _ _ _ _ _ _ tri_block_complex 7 ltac:(vm_compute; lia)) as (rc' & dg2 & E3 & _ & H3 & _).
    rewrite E1 in E3. injection E3 as <- <-. refine (proj1 (H3 5 6 _ _ _)); try (simpl; tauto).
    assert (Hl : forall r, mden (product (m_col tri_D) (crm_column (m_col tri_D) rc)) 6 r = mden (m_col tri_D) 6 r).
    { revert E1. vm_compute. intros [= <- <-]. reflexivity. }
    split.
    + rewrite Hl. vm_compute. discriminate.
    + intros r Hr. rewrite Hl. change nat in r. do 7 (destruct r as [|r]; [first [vm_compute; reflexivity|exfalso; vm_compute in Hr; destruct Hr as [Hr|[Hr Hr2]]; discriminate]|]). vm_compute. reflexivity.
Qed.
