(** Property theorem C78: the clearing algorithm with the dimensions visited in any order. *)
From Verif Require Import Base Fields FieldsFacts Spec LinAlg Columns ColumnsFacts Matrices SpecMat MatricesFacts Reduction LoopProofs StandardProofs ReadOffProofs Graded StandardResults Examples ClearingProofs ClearingOrder PropClearing.
From Coq Require Import Ring Field Permutation Lia.

(** C78: whatever list of dimensions [build_with_diagram] is given -- in the wrong direction, with gaps, with repetitions -- it returns, and returns
    what it would return for the first visits alone; the pairs are exactly the persistence pairs; the columns of V form a triangular matrix that reduces D;
    and the reported essential elements are the positive ones that are not the birth of a pair found in a block visited *before* theirs. *)
Theorem C78_any_dimension_order :
  forall (HI : heaps) (K : coeffT) (C F : ordT) (g : C -> Z) (e : Z) (phi : C -> F) (D : fmatrix K C C F) (sb : split_basis C)
    (ds : list nat) (blocks : list (list C)),
  graded_blocks g e phi D sb (first_visits [] ds) blocks ->
  forall fuel, length (row_set (m_col D) (concat blocks)) < fuel ->
  exists rc dg, build_with_diagram HI fuel D sb ds = Ok (rc, dg) /\
    build_with_diagram HI fuel D sb (first_visits [] ds) = Ok (rc, dg) /\
    NoDup (pairings dg) /\ NoDup (essential dg) /\
    forall l', NoDup l' -> (forall c, In c l' <-> In c (concat blocks)) ->
      (forall blk x y, In blk blocks -> before blk x y -> before l' x y) ->
      let Dm := mden (m_col D) in
      (forall i j, In (i, j) (pairings dg) <-> In j l' /\ is_pair phi l' Dm i j) /\
      (forall c, In c (essential dg) <-> In c l' /\ is_positive l' Dm c /\
         ~ exists j p1 p2, blocks = p1 ++ p2 /\ In j (concat p1) /\ In c (concat p2) /\ is_pair phi l' Dm c j) /\
      triangular l' (mden (crm_column (m_col D) rc)) /\
      reduced phi l' (fun j => lincomb l' (mden (crm_column (m_col D) rc) j) Dm).
Proof.
  intros HI K C F g e phi D sb ds blocks HB fuel Hf.
  destruct (o_build HI HB ds eq_refl Hf) as (rc & dg & E1 & E2 & Hg). exists rc, dg.
  split; [exact E1|]. split; [exact E2|]. split; [apply Hg|]. split; [apply Hg|].
  intros l' Hl' Hs Ho Dm. split; [|split; [|split]].
  - exact (proj2 (o_pairs HB Hg Hl' Hs Ho)).
  - intros c. rewrite (proj2 (o_essential HB Hg Hl' Hs Ho) c). split; intros (H1 & H2 & H3); (split; [exact H1|split; [exact H2|]]).
    + intros (j & p1 & p2 & A1 & A2 & A3 & A4). apply (H3 j); auto. exists p1, p2; auto.
    + intros j (p1 & p2 & A1 & A2 & A3) Hp. apply H3. exists j, p1, p2. auto.
  - exact (o_triangular Hg Hl' Hs Ho).
  - exact (o_reduced HB Hg Hl' Hs).
Qed.
Print Assumptions C78_any_dimension_order.

(** Two orders of the same dimensions: the same pairs. *)
Corollary C78_order_does_not_change_pairs :
  forall (HI HI' : heaps) (K : coeffT) (C F : ordT) (g : C -> Z) (e : Z) (phi : C -> F) (D : fmatrix K C C F) (sb : split_basis C)
    (ds ds' : list nat) (blocks blocks' : list (list C)),
  graded_blocks g e phi D sb (first_visits [] ds) blocks ->
  graded_blocks g e phi D sb (first_visits [] ds') blocks' ->
  (forall blk, In blk blocks <-> In blk blocks') ->
  forall fuel fuel', length (row_set (m_col D) (concat blocks)) < fuel -> length (row_set (m_col D) (concat blocks')) < fuel' ->
  exists rc dg rc' dg', build_with_diagram HI fuel D sb ds = Ok (rc, dg) /\ build_with_diagram HI' fuel' D sb ds' = Ok (rc', dg') /\
    Permutation (pairings dg) (pairings dg').
Proof.
  intros HI HI' K C F g e phi D sb ds ds' blocks blocks' HB HB' Hsame fuel fuel' Hf Hf'.
  destruct (C78_any_dimension_order HI K C F g e phi D sb ds blocks HB fuel Hf) as (rc & dg & E1 & _ & N1 & _ & H1).
  destruct (C78_any_dimension_order HI' K C F g e phi D sb ds' blocks' HB' fuel' Hf') as (rc' & dg' & E2 & _ & N2 & _ & H2).
  exists rc, dg, rc', dg'. split; [exact E1|]. split; [exact E2|]. apply NoDup_Permutation; auto. intros [i j].
  assert (Hbb : forall blk x y, In blk blocks -> before blk x y -> before (concat blocks) x y).
  { intros blk x y Hb (A & B & Cc & Eq). apply in_split in Hb. destruct Hb as (p & q & ->).
    exists (concat p ++ A), B, (Cc ++ concat q). rewrite concat_app. simpl. rewrite Eq. rewrite <- !app_assoc. simpl. now rewrite <- app_assoc. }
  assert (Hin : forall c, In c (concat blocks) <-> In c (concat blocks')).
  { intros c. rewrite !in_concat. split; intros (b & Hb & Hc); exists b; split; auto; apply Hsame; auto. }
  destruct (H1 (concat blocks)) as [Q1 _]; [apply HB|reflexivity|exact Hbb|].
  destruct (H2 (concat blocks)) as [Q2 _]; [apply HB|exact Hin|intros blk x y Hb; apply Hbb; apply Hsame; auto|].
  rewrite Q1, Q2. reflexivity.
Qed.
Print Assumptions C78_order_does_not_change_pairs.

(** In the wrong direction -- each block visited after the block of its rows -- every positive element is reported as essential,
    the births of the reported pairs included. *)
Corollary C78_wrong_direction :
  forall (HI : heaps) (K : coeffT) (C F : ordT) (g : C -> Z) (e : Z) (phi : C -> F) (D : fmatrix K C C F) (sb : split_basis C)
    (ds : list nat) (blocks : list (list C)),
  graded_blocks g e phi D sb (first_visits [] ds) blocks ->
  (forall p1 p2 c r, blocks = p1 ++ p2 -> In c (concat p1) -> mden (m_col D) c r <> f0 -> ~ In r (concat p2)) ->
  forall fuel, length (row_set (m_col D) (concat blocks)) < fuel ->
  exists rc dg, build_with_diagram HI fuel D sb ds = Ok (rc, dg) /\
    (forall c, In c (essential dg) <-> In c (concat blocks) /\ is_positive (concat blocks) (mden (m_col D)) c) /\
    (forall i j, In (i, j) (pairings dg) -> In i (concat blocks) -> In i (essential dg)).
Proof.
  intros HI K C F g e phi D sb ds blocks HB Hdir fuel Hf.
  destruct (o_build HI HB ds eq_refl Hf) as (rc & dg & E1 & _ & Hg). exists rc, dg. split; [exact E1|].
  set (l := concat blocks).
  assert (Hl : NoDup l) by apply HB.
  assert (Hbb : forall blk x y, In blk blocks -> before blk x y -> before l x y).
  { intros blk x y Hb (A & B & Cc & Eq). apply in_split in Hb. destruct Hb as (p & q & Eb).
    exists (concat p ++ A), B, (Cc ++ concat q). unfold l. rewrite Eb, concat_app. simpl. rewrite Eq. rewrite <- !app_assoc. simpl. now rewrite <- app_assoc. }
  assert (Hsame : forall c, In c l <-> In c (concat blocks)) by (intros; reflexivity).
  assert (He : forall c, In c (essential dg) <-> In c l /\ is_positive l (mden (m_col D)) c).
  { intros c. rewrite (proj2 (o_essential HB Hg Hl Hsame Hbb) c). split; [tauto|]. intros [H1 H2]. split; [exact H1|]. split; [exact H2|].
    intros j (p1 & p2 & Eb & Hj & Hc) Hp.
    assert (Hjl : In j l) by (unfold l; rewrite Eb, concat_app; apply in_app_iff; auto).
    apply (o_lead HB Hg Hl Hsame Hbb c j Hjl) in Hp. destruct Hp as [Hn _]. unfold ord_rden in Hn. apply lincomb_nonzero in Hn.
    destruct Hn as (x & Hx & Hvx & Hn).
    apply in_concat in Hj. destruct Hj as (blk & Hb & Hjb).
    assert (Hbb' : In blk blocks) by (rewrite Eb; apply in_app_iff; auto).
    destruct (o_cols Hg _ _ Hbb' Hjb) as (lv & _ & Hv & Hin & _).
    rewrite Hv in Hvx. apply coef_in in Hvx. destruct Hvx as [k Hk].
    apply (Hdir p1 p2 x c Eb); auto. apply in_concat. exists blk. split; auto. exact (Hin _ _ Hk). }
  split; [exact He|]. intros i j Hp Hi. apply He. split; [exact Hi|].
  apply (proj2 (o_pairs HB Hg Hl Hsame Hbb)) in Hp. destruct Hp as [Hj Hp].
  pose proof Hp as Hp'. apply (o_lead HB Hg Hl Hsame Hbb i j Hj) in Hp'.
  apply (o_zero HB Hg Hl Hsame Hbb _ Hi).
  assert (Eg : map_get i rc = Some (Cleared j)).
  { apply (proj1 (proj2 Hg)). split; auto. rewrite app_nil_r. exact Hj. }
  exact (o_birth_zero HB Hg i Hi Eg).
Qed.
Print Assumptions C78_wrong_direction.

(* ------------------------------------------------------------------ *)
(** ** Non-vacuity: the filled triangle over Z3, dimensions visited upwards, with repetitions *)
Definition tri_up : list (list nat_ord) := [[0; 1; 2]; [3; 4; 5]; [6]].
Example C78_ex_hyps : graded_blocks (F:=nat_ord) tri_dim (-1) tri_fil tri_D tri_sb (first_visits [] [0; 1; 0; 2; 1]) tri_up.
Proof.
  assert (El : concat tri_up = tri_l) by reflexivity.
  unfold graded_blocks. rewrite El. refine (conj _ (conj _ (conj _ (conj _ (conj _ (conj _ (conj _ _))))))).
  - apply seq_NoDup.
  - change (first_visits [] [0; 1; 0; 2; 1]) with [0; 1; 2]. repeat constructor; eexists; (split; [reflexivity|apply list_basis_enum]).
  - intros c Hc. apply tri_square. exact Hc.
  - intros blk x y Hb Hxy. pose proof (before_in Hxy) as [Hx Hy]. simpl in Hb.
    assert (Hin : forall z, In z blk -> In z tri_l) by (intros z Hz; apply in_seq; change nat in z; destruct Hb as [<-|[<-|[<-|[]]]]; simpl in Hz; intuition lia).
    apply tri_ordered; auto. apply before_split in Hxy. destruct Hxy as (A & B & E & Hi). change nat in x, y.
    destruct Hb as [<-|[<-|[<-|[]]]];
      (destruct A as [|? [|? [|? [|]]]]; simpl in E; inversion E; subst; simpl in Hi; intuition lia).
  - discriminate.
  - intros blk x y Hb Hx Hy. simpl in Hb, Hy.
    destruct Hb as [<-|[<-|[<-|[]]]]; simpl in Hx;
      repeat (destruct Hx as [<-|Hx]; [|]); try tauto;
      repeat (destruct Hy as [<-|Hy]; [|]); try tauto; vm_compute; split; (discriminate || tauto || (intros; decompose [or] H; discriminate) || (intros H; repeat (destruct H as [H|H]; try discriminate H)); tauto).
  - intros c t k r Hc Et Hk. change nat in c, r. simpl in Hc.
    repeat (destruct Hc as [<-|Hc]; [vm_compute in Et; injection Et as <-; simpl in Hk;
      repeat (destruct Hk as [Hk|Hk]; [injection Hk as _ <-; split; [reflexivity|intros _; simpl; tauto]|]); destruct Hk|]). destruct Hc.
  - exact (proj2 tri_complex).
Qed.
(** the same pairs as in the right direction (see [C30_C33_ex]); the only class that is really essential is that of vertex 0 *)
Example C78_ex_wrong_direction : exists rc,
  build_with_diagram list_heaps 7 tri_D tri_sb [0; 1; 0; 2; 1] = Ok (rc, @Diagram nat_ord [5; 2; 1; 0] [(5, 6); (2, 4); (1, 3)]) /\
  length (row_set (m_col tri_D) (concat tri_up)) < 7.
Proof. eexists. split; [vm_compute; reflexivity|vm_compute; lia]. Qed.
Example C78_ex_direction : forall p1 p2 c r, tri_up = p1 ++ p2 -> In c (concat p1) -> mden (m_col tri_D) c r <> f0 -> ~ In r (concat p2).
Proof.
  intros p1 p2 c r E Hc Hn Hr.
  assert (Hcl : In c tri_l) by (change tri_l with (concat tri_up); rewrite E, concat_app; apply in_app_iff; auto).
  pose proof (@tri_graded c r Hcl Hn) as Hg.
  assert (Hlt : forall a b, In a (concat p1) -> In b (concat p2) -> (tri_dim a < tri_dim b)%Z).
  { intros a b Ha Hb. destruct p1 as [|b1 [|b2 [|b3 [|b4 p1]]]]; simpl in E; inversion E; subst; simpl in Ha, Hb;
      repeat (destruct Ha as [<-|Ha]; [|]); try tauto; repeat (destruct Hb as [<-|Hb]; [|]); try tauto; reflexivity. }
  specialize (Hlt c r Hc Hr). lia.
Qed.
