(** C101, second part: spanning trees of least total length. *)
From Coq Require Import Reals Lra.
From Verif Require Import Base Fields FieldsFacts Spec Columns Matrices Reduction Rips SpecRips RipsCode RipsFacts RipsBasis PropRips RipsCohomology PropRipsCohomology PropRipsComponents PropGrpphStability SpanTree PropSpanTree.
From Coq Require Import Permutation Lia.
Set Implicit Arguments.

(** the total of the lengths, read as real numbers *)
Definition total {F : ordT} (val : F -> R) (l : list F) : R := fold_right (fun x s => (val x + s)%R) 0%R l.
Lemma total_perm {F : ordT} (val : F -> R) l l' : Permutation l l' -> total val l = total val l'.
Proof. induction 1 as [|x l l' H IH|x y l|l l1 l2 H IH H' IH']; cbn [total fold_right]; [reflexivity|unfold total in IH; now rewrite IH|lra|now transitivity (total val l1)]. Qed.
Lemma total_forced {F : ordT} (val : F -> R) (l l' : list F) : (forall x y, olt x y -> (val x < val y)%R) -> length l = length l' ->
  dominated l l' -> (total val l' <= total val l)%R -> Permutation l l'.
Proof.
  intros Hval El (M & rest & P & P' & H) Hle. rewrite (total_perm val P), (total_perm val P') in Hle.
  apply Permutation_length in P as L1. apply Permutation_length in P' as L2. rewrite app_length in L2. rewrite map_length in L1, L2. assert (rest = []) by (destruct rest; auto; cbn [length] in L2; lia). subst rest. rewrite app_nil_r in *.
  rewrite P, P'. clear P P' El L1 L2. assert (Hm : (total val (map fst M) <= total val (map snd M))%R /\ ((total val (map snd M) <= total val (map fst M))%R -> map fst M = map snd M)).
  { clear Hle. induction M as [|[x y] M IH]; [split; [apply Rle_refl|auto]|]. destruct (IH ltac:(intros; apply H; now right)) as [I1 I2]. cbn [map fst snd total fold_right]. fold (total val (map fst M)). fold (total val (map snd M)).
    assert (Hxy : ole x y) by (apply H; now left). apply ole_lt_eq in Hxy. destruct Hxy as [Hxy| ->].
    - apply Hval in Hxy. split; [lra|]. intros. lra.
    - split; [lra|]. intros Hs. f_equal. apply I2. lra. }
  destruct Hm as [_ Hm]. now rewrite (Hm Hle).
Qed.

(** The usual definition of a minimum spanning tree, least total length, gives the bars of dimension 0 too. *)
Theorem C101_least_total_length :
  forall (HI : heaps) (K : coeffT) (F : ordT) (val : F -> R) (uw : N) (z : F) (d : list (list F)) (max_dim : nat),
  (forall x y, olt x y -> (val x < val y)%R) ->
  1 <= length d -> distance_matrix z d -> 1 <= max_dim -> codes_fit uw (length d) (max_dim + 2) ->
  forall (L : list N) (fuel : nat), covers_simplices (length d) (max_dim + 2) L -> length L < fuel ->
  exists rc dg, rips_cohomology HI (K:=K) fuel uw z d max_dim = Ok (rc, dg) /\
    forall (phi : N_ord -> F) (dim : N_ord -> Z) (T : list (nat * nat)), rips_filtration z d phi -> simplex_dim (length d) dim ->
    spanning_tree (length d) T -> (forall T', spanning_tree (length d) T' -> (total val (lengths z d T) <= total val (lengths z d T'))%R) ->
      Permutation (map (fun p => (phi (unrev (snd p)), phi (unrev (fst p)))) (filter (fun p : rN * rN => (dim (unrev (snd p)) =? 0)%Z) (pairings dg)))
                  (map (fun x => (z, x)) (lengths z d T)).
Proof.
  intros HI K F val uw z d m Hval Hn Hd Hm Hfit L fuel HL Hf.
  destruct (@C101_spanning_tree HI K F uw z d m Hn Hd Hm Hfit L fuel HL Hf) as (rc & dg & T0 & E1 & HT0 & Hmin & H1).
  exists rc, dg. split; auto. intros phi dim T Hphi Hdim HT HT'. rewrite (H1 phi dim Hphi Hdim). apply Permutation_map.
  apply (@total_forced F val); auto; [|apply Hmin, HT]. unfold lengths. rewrite !map_length. destruct HT0 as [_ ->]. destruct HT as [_ ->]. reflexivity.
Qed.
Print Assumptions C101_least_total_length.
(** The values 1, 2, 4 of the tree of [C101_ex], read as reals: 7 in total. *)
Example C101_total_ex : (forall x y : nat_ord, olt x y -> (INR x < INR y)%R) /\ total (F:=nat_ord) INR [1; 2; 4] = 7%R.
Proof. split; [intros x y H; apply lt_INR; unfold olt in H; cbn [cmp nat_ord] in H; now apply Nat.compare_lt_iff|]. cbn [total fold_right]. simpl. lra. Qed.
