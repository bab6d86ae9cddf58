(** Every filtered digraph has a listing of its cells. *)
From Verif Require Import Base Fields FieldsFacts Spec LinAlg Columns ColumnsFacts Matrices SpecMat MatricesFacts Reduction ReadOffProofs Graded StandardResults Duality Rips RipsBasis RipsComplex GrpphCells Grpph SpecGrpph GrpphFacts GrpphColumns GrpphComplex GrpphReduce.
From Coq Require Import Sorted Permutation Lia.
Set Implicit Arguments.

Section Listing.
  Context {F : ordT} (time : nat -> nat -> option F) (n : nat) (z inf : F).
  Hypothesis HG : filtered_digraph time n z inf.
  Variable E : list (nat * nat).
  Hypothesis HE : forall s t, In (s, t) E -> s < n /\ t < n.
  Notation gen := (generator time).
  Notation birth := (cell_birth time n z E).

  (** the generating 2-cells with their births *)
  Definition all_gens : list (F * cell) :=
    map (fun p : Z2_coeff * cell2 * F => (snd p, TwoCell (snd (fst p))))
      (flat_map (fun a => flat_map (fun b => flat_map (fun c => all2 time n inf a b c) (seq 0 n)) (seq 0 n)) (seq 0 n)).
  Lemma all_gens_in f c : In (f, c) all_gens <-> cell_dimension c = 2 /\ birth c f.
  Proof.
    unfold all_gens. rewrite in_map_iff. split.
    - intros ([[k X] g] & [= <- <-] & H). apply in_flat_map in H. destruct H as (a & _ & H). apply in_flat_map in H. destruct H as (b & _ & H).
      apply in_flat_map in H. destruct H as (d & _ & H). apply (all2_in HG) in H. split; [reflexivity|]. exact (proj1 H).
    - intros [Hd Hb]. destruct c as [s|s t|X]; try discriminate. cbn [cell_birth] in Hb.
      assert (Hp : exists a b d (k : Z2_coeff), a < n /\ b < n /\ d < n /\ path_coef X a b d = Some k).
      { destruct Hb as [a b f Ef|a b d f h Hac Ef Eh Hle|a b d f Hac Hp Ef|a b b' d f Hac Hp Hb Hne Ef].
        - pose proof (path_lt HG _ _ _ Ef). exists a, b, a, k_one. split; [tauto|]. split; [tauto|]. split; [tauto|]. cbn [path_coef]. rewrite !Nat.eqb_refl. reflexivity.
        - pose proof (path_lt HG _ _ _ Ef). exists a, b, d, k_one. split; [tauto|]. split; [tauto|]. split; [tauto|]. cbn [path_coef]. rewrite !Nat.eqb_refl. reflexivity.
        - destruct Hp as [(g & Eg & _) _]. pose proof (path_lt HG _ _ _ Eg). exists a, b, d, k_one. split; [tauto|]. split; [tauto|]. split; [tauto|]. cbn [path_coef]. rewrite !Nat.eqb_refl. reflexivity.
        - pose proof (path_lt HG _ _ _ Ef). exists a, b', d, k_one. split; [tauto|]. split; [tauto|]. split; [tauto|]. cbn [path_coef]. rewrite !Nat.eqb_refl. destruct (Nat.eqb_spec b b'); [congruence|]. reflexivity. }
      destruct Hp as (a & b & d & k & Ha & Hbn & Hd' & Hk). exists (k, X, f). split; [reflexivity|].
      apply in_flat_map. exists a. split; [apply in_seq; lia|]. apply in_flat_map. exists b. split; [apply in_seq; lia|]. apply in_flat_map. exists d. split; [apply in_seq; lia|].
      apply (all2_in HG). split; [exact Hb|exact Hk].
  Qed.
  Definition gb2 : list (F * cell) := @sort_unstable (pair_ord F cell_ord) (nodup (ord_eq_dec (T:=pair_ord F cell_ord)) all_gens).
  Lemma gb2_in f c : In (f, c) gb2 <-> cell_dimension c = 2 /\ birth c f.
  Proof.
    rewrite <- all_gens_in. unfold gb2. rewrite <- (nodup_In (ord_eq_dec (T:=pair_ord F cell_ord)) all_gens (f, c)).
    split; apply Permutation_in; [symmetry|]; apply (@sort_perm (pair_ord F cell_ord)).
  Qed.
  Lemma gb2_sorted : StronglySorted (@olt (pair_ord F cell_ord)) gb2.
  Proof. apply (@sort_strict (pair_ord F cell_ord)). apply NoDup_nodup. Qed.

  Definition births_phi (c : cell) : F := match grpph_filtration_value z (fun s t => Ok (time s t)) E c with Ok f => f | _ => z end.
  Lemma births_phi_ok c f : birth c f -> births_phi c = f.
  Proof. intros H. unfold births_phi. rewrite (gfil_ok HG (fun s t => Ok (time s t)) (fun s t _ _ => eq_refl) E HE c _ H). reflexivity. Qed.

  Hypothesis HEn : NoDup E.
  Definition gbk (k : nat) : list (F * cell) := match k with 0 | 1 => gb time n z E k | _ => gb2 end.
  Lemma gbk_in k f c : k <= 2 -> (In (f, c) (gbk k) <-> cell_dimension c = k /\ birth c f).
  Proof.
    intros Hk. destruct k as [|[|[|]]]; [| | |lia]; cbn [gbk].
    - apply (gb_in HG E HE f c); lia.
    - apply (gb_in HG E HE f c); lia.
    - apply gb2_in.
  Qed.
  Lemma gbk_sorted k : StronglySorted (@olt (pair_ord F cell_ord)) (gbk k).
  Proof. destruct k as [|[|]]; [apply gb_sorted; auto|apply gb_sorted; auto|apply gb2_sorted]. Qed.
  Definition listing : list cell := concat (map (fun k => map snd (gbk k)) (seq 0 3)).
  Lemma blk_in k c : k <= 2 -> (In c (map snd (gbk k)) <-> cell_dimension c = k /\ exists f, birth c f).
  Proof.
    intros Hk. rewrite in_map_iff. split.
    - intros ([f c'] & <- & H). apply gbk_in in H; auto. cbn [snd]. split; [tauto|]. exists f. tauto.
    - intros (Hd & f & Hb). exists (f, c). split; auto. apply gbk_in; auto.
  Qed.
  Lemma blk_phi k p : k <= 2 -> In p (gbk k) -> fst p = births_phi (snd p).
  Proof. intros Hk Hp. destruct p as [f c]. apply gbk_in in Hp; auto. symmetry. apply births_phi_ok. tauto. Qed.
  Theorem listing_ok : cell_listing time n z E births_phi listing.
  Proof.
    split; [|split; [|split]].
    - apply NoDup_concat.
      + intros l Hl. apply in_map_iff in Hl. destruct Hl as (k & <- & Hk). apply in_seq in Hk.
        apply (@pairs_snd_nodup F cell_ord (gbk k) births_phi); [|intros p; apply blk_phi; lia]. apply (@sorted_nodup' (pair_ord F cell_ord)). apply gbk_sorted.
      + intros A1 l1 A2 l2 A3 x Eq H1 H2. apply (@map_seq_split 1 (le_n 1)) in Eq. destruct Eq as (i & j & Hij & Hj & -> & ->).
        apply blk_in in H1, H2; lia.
    - intros c. unfold listing. rewrite in_concat. split.
      + intros (l & Hl & Hc). apply in_map_iff in Hl. destruct Hl as (k & <- & Hk). apply in_seq in Hk. apply blk_in in Hc; [tauto|lia].
      + intros Hc. exists (map snd (gbk (cell_dimension c))). split; [apply (in_map (fun k => map snd (gbk k))); apply in_seq; destruct c; simpl; lia|].
        apply blk_in; [destruct c; simpl; lia|]. auto.
    - exact births_phi_ok.
    - intros x y Hb Hd. apply Nat2Z.inj in Hd. apply concat_before in Hb. destruct Hb as [(l & Hl & Hb)|(A1 & l1 & A2 & l2 & A3 & Eq & H1 & H2)].
      + apply in_map_iff in Hl. destruct Hl as (k & <- & Hk). apply in_seq in Hk.
        apply (@pairs_before F cell_ord (gbk k) births_phi x y); [apply gbk_sorted|intros p; apply blk_phi; lia|exact Hb].
      + exfalso. apply (@map_seq_split 1 (le_n 1)) in Eq. destruct Eq as (i & j & Hij & Hj & -> & ->). apply blk_in in H1; [|lia]. apply blk_in in H2; [|lia]. lia.
  Qed.
End Listing.
