(** Property theorem C79: the clearing algorithm depends on the matrix only. *)
From Verif Require Import Base Fields FieldsFacts Spec LinAlg Columns ColumnsFacts Matrices SpecMat MatricesFacts Reduction LoopProofs StandardProofs ReadOffProofs Graded StandardResults Examples ClearingProofs ClearingOrder ClearingDet PropStandard PropClearing PropClearingOrder.
From Coq Require Import Ring Field Lia.

(** C79: two presentations [D], [D'] of one matrix -- the same filtration, the same entries in every visited column, but other term lists, another heap
    (tie-breaking), an overridden or default [column_with_filtration], other basis objects, other lists of dimensions with the same first visits -- make
    [build_with_diagram] return literally the same table of reduction columns and the same diagram, in the same order; and the columns of V read back
    from the table are the same vectors. *)
Theorem C79_clearing_presentation_independent :
  forall (HI HI' : heaps) (K : coeffT) (C F : ordT) (g g' : C -> Z) (e e' : Z) (phi : C -> F) (D D' : fmatrix K C C F) (sb sb' : split_basis C)
    (ds ds' : list nat) (blocks : list (list C)),
  graded_blocks g e phi D sb (first_visits [] ds) blocks ->
  graded_blocks g' e' phi D' sb' (first_visits [] ds') blocks ->
  (forall c, In c (concat blocks) -> forall r, mden (m_col D) c r = mden (m_col D') c r) ->
  forall fuel fuel', length (row_set (m_col D) (concat blocks)) < fuel -> length (row_set (m_col D') (concat blocks)) < fuel' ->
  exists rc dg, build_with_diagram HI fuel D sb ds = Ok (rc, dg) /\ build_with_diagram HI' fuel' D' sb' ds' = Ok (rc, dg) /\
    forall c, In c (concat blocks) -> exists t t', crm_column (m_col D) rc c = Ok t /\ crm_column (m_col D') rc c = Ok t' /\
      forall r, coef t r = coef t' r.
Proof.
  intros HI HI' K C F g g' e e' phi D D' sb sb' ds ds' blocks HB HB' Heq fuel fuel' Hf Hf'.
  destruct (o_build HI HB ds eq_refl Hf) as (rc & dg & E1 & E2 & Hg).
  destruct (o_build HI' HB' ds' eq_refl Hf') as (rc' & dg' & E1' & E2' & Hg').
  pose proof (clearing_det HI HI' HB HB' Heq Hf Hf') as Hdet. rewrite E2, E2' in Hdet. injection Hdet as <- <-.
  exists rc, dg. split; [exact E1|]. split; [exact E1'|]. intros c Hc.
  pose proof Hc as Hc'. apply in_concat in Hc'. destruct Hc' as (blk & Hb & Hcb).
  destruct (o_cols Hg _ _ Hb Hcb) as (t & A1 & A2 & _). destruct (o_cols Hg' _ _ Hb Hcb) as (t' & B1 & B2 & _).
  exists t, t'. split; [exact A1|]. split; [exact B1|]. intros r. rewrite <- A2, <- B2.
  assert (Hi : incl (concat blocks ++ []) (concat blocks)) by (rewrite app_nil_r; intros x; auto).
  refine (cd_vden HB HB' Heq c r Hi Hg Hg' _). rewrite app_nil_r. exact Hc.
Qed.
Print Assumptions C79_clearing_presentation_independent.

(* ------------------------------------------------------------------ *)
(** ** Non-vacuity: the filled triangle with another order of terms and a coefficient split in two *)
Definition tri_cols2 : list (list (Z3_coeff * nat_ord)) :=
  [ []; []; []; [(a1, 1); (a1, 0); (a1, 0)]; [(a1, 2); (a2, 0)]; [(a2, 1); (a1, 2)]; [(a1, 5); (a1, 3); (a2, 4)] ].
Definition tri_D2 : fmatrix Z3_coeff nat_ord nat_ord nat_ord :=
  with_filtration (F:=nat_ord) (vecvec_column tri_cols2) (fun r => Ok (tri_fil r)).
Example C79_ex_same : tri_cols2 <> tri_cols /\ forall c, In c (concat tri_up) -> forall r, mden (m_col tri_D) c r = mden (m_col tri_D2) c r.
Proof.
  split; [discriminate|]. intros c Hc r. change (concat tri_up) with tri_l in Hc. apply in_seq in Hc. change nat in c, r.
  do 7 (destruct c as [|c]; [do 6 (destruct r as [|r]; [vm_compute; f_equal; apply zp_eq; reflexivity || reflexivity|]); vm_compute; reflexivity|]). lia.
Qed.
Example C79_ex_hyps : graded_blocks (F:=nat_ord) tri_dim (-1) tri_fil tri_D2 tri_sb (first_visits [] [0; 0; 1; 2; 2]) tri_up.
Proof.
  destruct C78_ex_hyps as (H1 & H2 & H3 & H4 & H5 & H6 & H7 & H8).
  refine (conj H1 (conj H2 (conj _ (conj H4 (conj H5 (conj H6 (conj _ _))))))).
  - intros c Hc. change (concat tri_up) with tri_l in Hc. apply in_seq in Hc. change nat in c.
    do 7 (destruct c as [|c]; [eapply with_filtration_coherent; reflexivity|]). lia.
  - intros c t k r Hc Et Hk. change nat in c, r. simpl in Hc.
    repeat (destruct Hc as [<-|Hc]; [vm_compute in Et; injection Et as <-; simpl in Hk;
      repeat (destruct Hk as [Hk|Hk]; [injection Hk as _ <-; split; [reflexivity|intros _; simpl; tauto]|]); destruct Hk|]). destruct Hc.
  - intros c Hc r. rewrite <- (H8 c Hc r). symmetry. apply lincomb_ext; [intros x _; now apply (proj2 C79_ex_same)|].
    intros x Hx. apply (proj2 C79_ex_same). exact Hx.
Qed.
Example C79_ex_run : exists rc dg, build_with_diagram list_heaps 7 tri_D tri_sb [0; 1; 0; 2; 1] = Ok (rc, dg) /\
  build_with_diagram list_heaps 7 tri_D2 tri_sb [0; 0; 1; 2; 2] = Ok (rc, dg) /\ crm_column (m_col tri_D) rc 5 <> crm_column (m_col tri_D2) rc 5.
Proof. eexists _, _. split; [vm_compute; reflexivity|]. split; [vm_compute; reflexivity|vm_compute; discriminate]. Qed.
