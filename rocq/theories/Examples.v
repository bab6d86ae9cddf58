(** Concrete matrices used to show that the hypotheses of the property theorems can be met. *)
From Verif Require Import Base Fields FieldsFacts Spec LinAlg Columns ColumnsFacts Matrices SpecMat MatricesFacts Reduction LoopProofs StandardProofs.
Set Implicit Arguments.

(** coefficients 1 and 2 = -1 in Z3 *)
Definition a1 : Z3_coeff := exist (fun a => zp_okb 3 a = true) 1%Z eq_refl.
Definition a2 : Z3_coeff := exist (fun a => zp_okb 3 a = true) 2%Z eq_refl.

(** The filled triangle: vertices 0 1 2, edges 3=01 4=02 5=12, face 6=012.  Column 5 is
    presented out of order and with a cancelling pair of terms. *)
Definition tri_cols : list (list (Z3_coeff * nat_ord)) :=
  [ []; []; []; [(a2, 0); (a1, 1)]; [(a2, 0); (a1, 2)];
    [(a1, 0); (a1, 2); (a2, 1); (a2, 0)]; [(a1, 3); (a2, 4); (a1, 5)] ].
(** vertices enter at 0, the edges 01, 02 at 1, edge 12 at 2, the face at 2 *)
Definition tri_fil (r : nat_ord) : nat_ord := nth r [0; 0; 0; 1; 1; 2; 2] 3.
Definition tri_D : fmatrix Z3_coeff nat_ord nat_ord nat_ord :=
  with_filtration (F:=nat_ord) (vecvec_column tri_cols) (fun r => Ok (tri_fil r)).
Definition tri_b : basis nat_ord := vecvec_basis tri_cols.
Definition tri_l : list nat_ord := seq 0 7.
Definition tri_dim (c : nat_ord) : Z := nth c [0; 0; 0; 1; 1; 1; 2]%Z 9%Z.

Lemma with_filtration_coherent {K : coeffT} {C R F : ordT} (col : oracle K C R) (phi : R -> F) c l :
  col c = Ok l -> coherent_at phi (with_filtration col (fun r => Ok (phi r))) c.
Proof.
  intros H. exists l, (tag phi l). split; auto. split.
  - apply default_colf_ok; auto.
  - split; auto. split; [apply tag_wfe|]. intros r. now rewrite tag_terms.
Qed.

Lemma standard_basis_enum n : enumerates (C:=nat_ord) (standard_basis n) (seq 0 n).
Proof.
  split; [now rewrite seq_length|]. intros i c H. simpl. f_equal.
  change nat in c. change (nth_error (seq 0 n) i = Some c) in H.
  assert (Hi : i < n). { assert (Hs : nth_error (seq 0 n) i <> None) by congruence. apply nth_error_Some in Hs. now rewrite seq_length in Hs. }
  rewrite (nth_error_nth' _ 0) in H by now rewrite seq_length. rewrite seq_nth in H by auto. now inversion H.
Qed.

Lemma tri_square : square_matrix tri_fil tri_D tri_b tri_l.
Proof.
  split; [apply seq_NoDup|]. split; [apply (standard_basis_enum 7)|].
  intros c Hc. apply in_seq in Hc.
  do 7 (destruct c as [|c]; [eapply with_filtration_coherent; reflexivity|]). lia.
Qed.

(** checking a property of all entries of a matrix by computation *)
Lemma entries_check {K : coeffT} {C R : ordT} (m : oracle K C R) (l : list C) (p : C -> R -> bool) :
  forallb (fun c => forallb (p c) (row_set m l)) l = true ->
  forall c r, In c l -> mden m c r <> f0 -> p c r = true.
Proof.
  intros H c r Hc Hn. rewrite forallb_forall in H. specialize (H c Hc). rewrite forallb_forall in H.
  apply H. eapply mden_row_set; eauto.
Qed.
Definition is0 {K : Type} (x : option K) : bool := match x with None => true | _ => false end.
Lemma square_check {K : coeffT} {C : ordT} (m : oracle K C C) (l : list C) :
  forallb (fun c => forallb (fun r => is0 (lincomb l (mden m c) (mden m) r)) (row_set m l)) l = true ->
  forall c, In c l -> vzero (lincomb l (mden m c) (mden m)).
Proof.
  intros H c Hc r. rewrite forallb_forall in H. specialize (H c Hc). rewrite forallb_forall in H.
  destruct (fscalar_dec (lincomb l (mden m c) (mden m) r)) as [|Hn]; auto.
  pose proof (lincomb_row_set _ _ _ _ Hn) as Hr. apply H in Hr. destruct (lincomb l (mden m c) (mden m) r); auto; discriminate.
Qed.

Lemma tri_complex : complex tri_l (mden (m_col tri_D)).
Proof.
  split.
  - intros c r Hc Hn. apply set_mem_iff.
    apply (@entries_check Z3_coeff nat_ord nat_ord (m_col tri_D) tri_l (fun _ r => set_mem r tri_l)) with (c := c);
      [vm_compute; reflexivity|exact Hc|exact Hn].
  - apply square_check. vm_compute. reflexivity.
Qed.
Lemma tri_graded : graded tri_dim (-1) tri_l (mden (m_col tri_D)).
Proof.
  intros c r Hc Hn. apply Z.eqb_eq.
  assert (Hx : (is0 (mden (m_col tri_D) c r) || (tri_dim r =? tri_dim c + -1)%Z) = true).
  { apply (@entries_check Z3_coeff nat_ord nat_ord (m_col tri_D) tri_l
     (fun c r => is0 (mden (m_col tri_D) c r) || (tri_dim r =? tri_dim c + -1)%Z)); auto. }
  apply orb_true_iff in Hx. destruct Hx as [Hx|]; auto. exfalso. revert Hn Hx.
  destruct (mden (m_col tri_D) c r); [discriminate|]. intros H. now destruct H.
Qed.
Lemma tri_ordered : forall x y, In x tri_l -> In y tri_l -> x < y -> row_lt (F:=nat_ord) tri_fil x y.
Proof.
  intros x y Hx Hy Hlt. apply row_lt_ord. unfold olt.
  assert (H : forallb (fun x => forallb (fun y => implb (x <? y)
     (match @cmp (row_ord (F:=nat_ord) (R:=nat_ord) tri_fil) x y with Lt => true | _ => false end)) tri_l) tri_l = true)
    by (vm_compute; reflexivity).
  rewrite forallb_forall in H. specialize (H x Hx). rewrite forallb_forall in H. specialize (H y Hy).
  apply Nat.ltb_lt in Hlt. rewrite Hlt in H. cbn [implb] in H. revert H.
  destruct (@cmp (row_ord (F:=nat_ord) (R:=nat_ord) tri_fil) x y); intros H; (reflexivity || discriminate H).
Qed.
