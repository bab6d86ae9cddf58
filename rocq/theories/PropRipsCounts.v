(** Property theorems C71: how many pairings and essential cells a Rips run reports, in each dimension. *)
From Verif Require Import Base Fields FieldsFacts Spec LinAlg Columns ColumnsFacts Matrices SpecMat MatricesFacts Reduction LoopProofs StandardProofs ReadOffProofs Graded StandardResults ClearingProofs PropMatrices PropStandard PropClearing Duality PropDuality Rips SpecRips RipsCode RipsFacts RipsBasis PropRips RipsComplex RipsCohomology PropRipsCohomology SpecPH Persistence RipsPersistence PropRipsPersistence PropRipsCli PropRipsHomology.
From Coq Require Import Permutation Lia.
Set Implicit Arguments.

(** ** Specification: the number of entries of a list whose key is [k], and the sum of the binomials *)
Definition count_at {A} (f : A -> Z) (k : Z) (l : list A) : nat := length (filter (fun x => Z.eqb (f x) k) l).
Lemma sum_bump v (g : nat -> nat) m : forall a, a <= v < a + m -> list_sum (map (fun k => (if Nat.eqb v k then 1 else 0) + g k) (seq a m)) = S (list_sum (map g (seq a m))).
Proof.
  induction m as [|m IH]; intros a Hv; [lia|]. cbn [seq map]. unfold list_sum in *. cbn [fold_right].
  destruct (Nat.eqb_spec v a) as [->|Hne]; [|rewrite IH by lia; lia].
  assert (E : map (fun k => (if Nat.eqb a k then 1 else 0) + g k) (seq (S a) m) = map g (seq (S a) m)).
  { apply map_ext_in. intros k Hk. apply in_seq in Hk. destruct (Nat.eqb_spec a k); [lia|reflexivity]. }
  rewrite E. lia.
Qed.
Lemma count_split {A} (f : A -> Z) m (l : list A) : (forall x, In x l -> (0 <= f x < Z.of_nat m)%Z) -> length l = list_sum (map (fun k => count_at f (Z.of_nat k) l) (seq 0 m)).
Proof.
  unfold count_at. induction l as [|x l IH]; intros H.
  - cbn. induction (seq 0 m); auto.
  - cbn [length]. rewrite IH by (intros; apply H; now right). assert (Hx := H x (or_introl eq_refl)). clear IH H.
    set (g := fun k => length (filter (fun y => Z.eqb (f y) (Z.of_nat k)) l)).
    assert (E : forall k, length (filter (fun y => Z.eqb (f y) (Z.of_nat k)) (x :: l)) = (if Nat.eqb (Z.to_nat (f x)) k then 1 else 0) + g k).
    { intros k. cbn [filter]. unfold g. destruct (Z.eqb_spec (f x) (Z.of_nat k)); destruct (Nat.eqb_spec (Z.to_nat (f x)) k); try lia; reflexivity. }
    rewrite (map_ext _ _ E). clear E. revert Hx. remember (Z.to_nat (f x)) as v. intros Hx. assert (Hv : 0 <= v < 0 + m) by lia. clear Heqv Hx.
    symmetry. apply sum_bump. lia.
Qed.

Section Counts.
  Context (HI : heaps) {K : coeffT} {F : ordT} (uw : N) (z : F) (d : list (list F)) (m : nat).
  Notation n := (length d).
  Hypothesis Hn : 1 <= n.
  Hypothesis Hd : rips_matrix z d.
  Hypothesis Hm : 1 <= m.
  Variable dg : diagram rN.
  Hypothesis N1 : NoDup (pairings dg).
  Hypothesis S1 : forall i j, In (i, j) (pairings dg) ->
       exists s t, simplex (length d) s /\ simplex (length d) t /\ length s <= m + 1 /\ length t = length s + 1 /\ j = Reverse (code (length d) s) /\ i = Reverse (code (length d) t).
  Hypothesis S2 : forall s, simplex (length d) s -> length s <= m + 1 ->
       let c := Reverse (code (length d) s) in
       (s = [0] \/ (exists i, In (i, c) (pairings dg)) \/ (exists j, In (c, j) (pairings dg))) /\
       ~ ((exists i, In (i, c) (pairings dg)) /\ (exists j, In (c, j) (pairings dg))) /\
       (s = [0] -> forall p, In p (pairings dg) -> fst p <> c /\ snd p <> c).
  Hypothesis S3 : forall i i' j j', In (i, j) (pairings dg) -> In (i', j') (pairings dg) -> (i = i' <-> j = j').
  Variable dim : N -> Z.
  Hypothesis Hdim : simplex_dim n dim.
  Definition P (k : nat) : list (rN * rN) := filter (fun p : rN * rN => Z.eqb (dim (unrev (snd p))) (Z.of_nat k)) (pairings dg).
  Lemma P_in k i j : In (i, j) (P k) <-> In (i, j) (pairings dg) /\ exists s t, simplex n s /\ simplex n t /\ length s = k + 1 /\ length t = k + 2 /\ j = Reverse (code n s) /\ i = Reverse (code n t).
  Proof.
    unfold P. rewrite filter_In. cbn [snd]. split.
    - intros [H E]. split; auto. apply S1 in H. destruct H as (s & t & Hs & Ht & Hls & Hlt & -> & ->). apply Z.eqb_eq in E. cbn [unrev] in E. rewrite Hdim in E by auto.
      exists s, t. repeat split; try apply Hs; try apply Ht; auto; lia.
    - intros [H (s & t & Hs & Ht & Hls & Hlt & -> & ->)]. split; auto. apply Z.eqb_eq. cbn [unrev]. rewrite Hdim by auto. lia.
  Qed.
  Lemma map_nodup {A B} (f : A -> B) l : (forall x y, In x l -> In y l -> f x = f y -> x = y) -> NoDup l -> NoDup (map f l).
  Proof.
    intros Hf Hl. induction Hl as [|x l Hx Hl IH]; cbn; constructor.
    - intros H. apply in_map_iff in H. destruct H as (y & E & Hy). assert (y = x) by (apply Hf; [now right|now left|auto]). now subst.
    - apply IH. intros; apply Hf; auto; now right.
  Qed.
  Lemma P_nodup_snd k : NoDup (map (fun p : rN * rN => unrev (snd p) : N) (P k)).
  Proof.
    apply map_nodup; [|now apply NoDup_filter]. intros [i [j]] [i' [j']] H H' E. cbn in E. subst j'. apply P_in in H, H'. destruct H as [H _]. destruct H' as [H' _].
    f_equal. now apply (S3 _ _ _ _ H H').
  Qed.
  Lemma P_nodup_fst k : NoDup (map (fun p : rN * rN => unrev (fst p) : N) (P k)).
  Proof.
    apply map_nodup; [|now apply NoDup_filter]. intros [[i] j] [[i'] j'] H H' E. cbn in E. subst i'. apply P_in in H, H'. destruct H as [H _]. destruct H' as [H' _].
    f_equal. now apply (S3 _ _ _ _ H H').
  Qed.
  Definition below (k : nat) : list N := match k with 0 => [code n [0]] | S k' => map (fun p : rN * rN => unrev (fst p) : N) (P k') end.
  Lemma simplex0 : simplex n [0].
  Proof. split; [discriminate|]. split; repeat constructor. lia. Qed.
  Lemma below_in k c : In c (below k) -> exists s, simplex n s /\ length s = k + 1 /\ c = code n s.
  Proof.
    destruct k as [|k]; cbn [below]; intros H.
    - destruct H as [<-|[]]. exists [0]. split; [apply simplex0|auto].
    - apply in_map_iff in H. destruct H as ([i j] & <- & H). apply P_in in H. destruct H as [_ (s & t & Hs & Ht & _ & Hlt & _ & ->)]. exists t. split; auto. split; [lia|auto].
  Qed.
  Lemma cells_split k : k <= m -> Permutation (map (fun p : rN * rN => unrev (snd p) : N) (P k) ++ below k) (cells z d m k).
  Proof.
    intros Hk. apply NoDup_Permutation.
    - apply nodup_app_intro; [apply P_nodup_snd| |].
      + destruct k; [repeat constructor; auto|apply P_nodup_fst].
      + intros c Hc Hb. apply in_map_iff in Hc. destruct Hc as ([i [j]] & <- & H). cbn [snd unrev] in *. apply P_in in H. destruct H as [H (s & t & Hs & Ht & Hls & Hlt & Ej & ->)]. injection Ej as ->.
        destruct k as [|k]; cbn [below] in Hb.
        * destruct Hb as [Hb|[]]. apply code_inj in Hb; [|apply simplex0|apply Hs]. subst s. destruct (S2 Hs ltac:(lia)) as (_ & _ & H3). apply (H3 eq_refl _ H). reflexivity.
        * apply in_map_iff in Hb. destruct Hb as ([[i] j] & Ei & H'). cbn [fst unrev] in Ei. subst i. apply P_in in H'. destruct (S2 Hs ltac:(lia)) as (_ & H2 & _). apply H2. split; [eauto|]. exists j. apply H'.
    - apply cells_nodup; auto.
    - intros c. rewrite in_app_iff, cells_in by auto. split.
      + intros [H|H]; [|now apply below_in]. apply in_map_iff in H. destruct H as ([i j] & <- & H). apply P_in in H. destruct H as [_ (s & t & Hs & Ht & Hls & _ & -> & _)]. eauto.
      + intros (s & Hs & Hls & ->). destruct (S2 Hs ltac:(lia)) as ([->|[(i & Hi)|(j & Hj)]] & _).
        * right. cbn in Hls. replace k with 0 by lia. now left.
        * left. apply in_map_iff. exists (i, Reverse (code n s)). split; auto. apply P_in. split; auto. destruct (S1 _ _ Hi) as (s' & t & Hs' & Ht & Hls' & Hlt & E & ->). injection E as E. apply code_inj in E; [|apply Hs|apply Hs']. subst s'.
          exists s, t. repeat split; try apply Hs; try apply Ht; auto; lia.
        * right. destruct (S1 _ _ Hj) as (s' & t & Hs' & Ht & Hls' & Hlt & -> & E). injection E as E. apply code_inj in E; [|apply Hs|apply Ht]. subst t.
          destruct s' as [|v s']; [destruct Hs'; congruence|]. destruct k as [|k]; [cbn in Hlt, Hls; lia|]. cbn [below]. apply in_map_iff. exists (Reverse (code n s), Reverse (code n (v :: s'))). split; auto. apply P_in. split; auto.
          exists (v :: s'), s. repeat split; try apply Hs; try apply Hs'; auto; lia.
  Qed.
  Lemma P_count k : k <= m -> length (P k) = binomial (n - 1) (k + 1).
  Proof.
    induction k as [|k IH]; intros Hk.
    - pose proof (Permutation_length (cells_split Hk)) as E. rewrite app_length, map_length, cells_count in E by auto. cbn [below length] in E.
      destruct n as [|n'] eqn:En; [lia|]. rewrite Nat.sub_0_r || (replace (S n' - 1) with n' by lia). cbn [Nat.add binomial] in *. destruct n'; cbn [binomial] in *; lia.
    - pose proof (Permutation_length (cells_split Hk)) as E. rewrite app_length, map_length, cells_count in E by auto. cbn [below] in E. rewrite map_length, IH in E by lia.
      destruct n as [|n'] eqn:En; [lia|]. replace (S n' - 1) with n' in * by lia. rewrite (Nat.add_comm (S k)), (Nat.add_comm k) in *. cbn [Nat.add binomial] in *. lia.
  Qed.
End Counts.

(** ** C71 *)
Theorem C71_cohomology_counts :
  forall (HI : heaps) (K : coeffT) (F : ordT) (uw : N) (z : F) (d : list (list F)) (max_dim : nat),
  1 <= length d -> rips_matrix z d -> 1 <= max_dim -> codes_fit uw (length d) (max_dim + 2) ->
  forall (L : list N) (fuel : nat), covers_simplices (length d) (max_dim + 2) L -> length L < fuel ->
  exists rc dg, rips_cohomology HI (K:=K) fuel uw z d max_dim = Ok (rc, dg) /\
    length (essential dg) = 1 /\
    length (pairings dg) = list_sum (map (fun k => binomial (length d - 1) (k + 1)) (seq 0 (max_dim + 1))) /\
    forall dim : N -> Z, simplex_dim (length d) dim -> forall k, k <= max_dim ->
      count_at (fun p : rN * rN => dim (unrev (snd p))) (Z.of_nat k) (pairings dg) = binomial (length d - 1) (k + 1).
Proof.
  intros HI K F uw z d m Hn Hd Hm Hfit L fuel HL Hfuel.
  destruct (@C44_cohomology_intrinsic HI K F uw z d m Hd Hm Hfit L fuel HL Hfuel) as (rc & dg & Erun & N1 & N2 & _).
  destruct (@C44_diagram_shape HI K F uw z d m Hd Hm Hfit L fuel HL Hfuel) as (rc' & dg' & E' & S1 & S2 & S3 & S4).
  rewrite Erun in E'. injection E' as <- <-.
  assert (S1' : forall i j, In (i, j) (pairings dg) -> exists s t, simplex (length d) s /\ simplex (length d) t /\ length s <= m + 1 /\ length t = length s + 1 /\ j = Reverse (code (length d) s) /\ i = Reverse (code (length d) t)).
  { intros i j H. destruct (S1 i j H) as (s & t & fs & ft & A & B & C & D & E & G & _). exists s, t. auto 9. }
  assert (HC : forall dim, simplex_dim (length d) dim -> forall k, k <= m -> count_at (fun p : rN * rN => dim (unrev (snd p))) (Z.of_nat k) (pairings dg) = binomial (length d - 1) (k + 1)).
  { intros dim Hdim k Hk. exact (@P_count F z d m Hn Hm dg N1 S1' S2 S3 dim Hdim k Hk). }
  exists rc, dg. split; auto. split; [|split; auto].
  - rewrite S4. destruct (Nat.eqb_spec (length d) 0); [lia|reflexivity].
  - destruct (@spec_exists K F z d Hd) as (_ & _ & Hdim & _). rewrite (@count_split _ (fun p : rN * rN => spec_dim (length d) (unrev (snd p))) (m + 1)).
    + f_equal. apply map_ext_in. intros k Hk. apply in_seq in Hk. apply HC; auto. lia.
    + intros [i j] H. destruct (S1' i j H) as (s & t & Hs & _ & Hls & _ & -> & _). cbn [snd unrev]. rewrite Hdim by auto. destruct s; [destruct Hs; congruence|]. cbn [length] in *. lia.
Qed.
Print Assumptions C71_cohomology_counts.

Theorem C71_homology_counts :
  forall (HI : heaps) (K : coeffT) (F : ordT) (uw : N) (z : F) (d : list (list F)) (max_dim : nat),
  1 <= length d -> rips_matrix z d -> 1 <= max_dim -> codes_fit uw (length d) (max_dim + 2) ->
  forall (L : list N) (fuel : nat), covers_simplices (length d) (max_dim + 2) L -> length L < fuel ->
  exists mat sb v dg,
    build_rips_boundary_matrix (K:=K) uw z d max_dim = Ok (mat, sb) /\
    standard_algo_with_diagram HI fuel mat (sb_total sb) false = Ok (v, dg) /\
    length (essential dg) = 1 + binomial (length d - 1) (max_dim + 1) /\
    length (pairings dg) = list_sum (map (fun k => binomial (length d - 1) (k + 1)) (seq 0 max_dim)) /\
    forall dim : N -> Z, simplex_dim (length d) dim -> forall k, k < max_dim ->
      count_at (fun p : N * N => dim (fst p)) (Z.of_nat k) (pairings dg) = binomial (length d - 1) (k + 1).
Proof.
  intros HI K F uw z d m Hn Hd Hm Hfit L fuel HL Hfuel.
  destruct (@C44_homology_same_pairs HI HI K F uw z d m Hd Hm Hfit L fuel fuel HL Hfuel Hfuel) as (rc & dg & mat & sb & v & dgh & Erun & Eb & Es & N3 & N4 & HP & HE).
  destruct (@C44_cohomology_intrinsic HI K F uw z d m Hd Hm Hfit L fuel HL Hfuel) as (rc' & dg' & E' & N1 & N2 & _).
  rewrite Erun in E'. injection E' as <- <-.
  destruct (@C44_diagram_shape HI K F uw z d m Hd Hm Hfit L fuel HL Hfuel) as (rc' & dg' & E' & S1 & S2 & S3 & S4).
  rewrite Erun in E'. injection E' as <- <-.
  assert (S1' : forall i j, In (i, j) (pairings dg) -> exists s t, simplex (length d) s /\ simplex (length d) t /\ length s <= m + 1 /\ length t = length s + 1 /\ j = Reverse (code (length d) s) /\ i = Reverse (code (length d) t)).
  { intros i j H. destruct (S1 i j H) as (s & t & fs & ft & A & B & C & D & E & G & _). exists s, t. auto 9. }
  assert (HC : forall dim, simplex_dim (length d) dim -> forall k, k <= m -> length (P dg dim k) = binomial (length d - 1) (k + 1)).
  { intros dim Hdim k Hk. exact (@P_count F z d m Hn Hm dg N1 S1' S2 S3 dim Hdim k Hk). }
  assert (HPk : forall dim, simplex_dim (length d) dim -> forall k, k < m -> count_at (fun p : N * N => dim (fst p)) (Z.of_nat k) (pairings dgh) = binomial (length d - 1) (k + 1)).
  { intros dim Hdim k Hk. rewrite <- (HC dim Hdim k) by lia. unfold count_at.
    rewrite <- (map_length (fun p : rN * rN => (unrev (snd p), unrev (fst p)) : N * N) (P dg dim k)). apply Permutation_length. apply NoDup_Permutation.
    - now apply NoDup_filter.
    - apply map_nodup; [|now apply NoDup_filter]. intros [[i] [j]] [[i'] [j']] _ _ E. cbn in E. injection E as -> ->. reflexivity.
    - intros [i j]. rewrite filter_In. cbn [fst]. rewrite in_map_iff. split.
      + intros [H Ed]. apply HP in H. destruct H as [H _]. exists (Reverse j : rN, Reverse i : rN). split; [reflexivity|]. apply filter_In. auto.
      + intros ([[j'] [i']] & E & H). cbn [fst snd unrev] in E. injection E as -> ->. apply filter_In in H. destruct H as [H Ed]. cbn [snd unrev] in Ed. split; auto. apply HP. split; auto.
        destruct (S1' _ _ H) as (s & t & Hs & Ht & Hls & Hlt & E1 & E2). injection E1 as ->. injection E2 as ->. exists t. split; auto. split; auto. apply Z.eqb_eq in Ed. rewrite Hdim in Ed by auto. lia. }
  destruct (@spec_exists K F z d Hd) as (_ & _ & Hdim & _).
  exists mat, sb, v, dgh. split; auto. split; auto. split; [|split; auto].
  - rewrite <- (HC _ Hdim m) by lia. rewrite <- (map_length (fun p : rN * rN => unrev (snd p) : N) (P dg _ m)).
    change (1 + length (map (fun p : rN * rN => unrev (snd p) : N) (P dg (spec_dim (length d)) m))) with (length (code (length d) [0] :: map (fun p : rN * rN => unrev (snd p) : N) (P dg (spec_dim (length d)) m))).
    apply Permutation_length. apply NoDup_Permutation; auto.
    + constructor; [|eapply P_nodup_snd; eauto]. intros H. apply in_map_iff in H. destruct H as ([i [j]] & E & H). cbn [snd unrev] in E. subst j. apply filter_In in H.
      destruct (S2 [0] (simplex0 d Hn Hm) ltac:(cbn; lia)) as (_ & _ & H3). apply (H3 eq_refl _ (proj1 H)). reflexivity.
    + intros c. cbn [In]. rewrite HE, S4. destruct (Nat.eqb_spec (length d) 0); [lia|]. split.
      * intros [[H|[]]|(t & Ht & Hlt & H)]; [left; congruence|]. right. apply in_map_iff. exists (Reverse (code (length d) t) : rN, Reverse c : rN). split; [reflexivity|].
        apply filter_In. split; auto. destruct (S1' _ _ H) as (s & t' & Hs & Ht' & Hls & Hlt' & E1 & E2). injection E1 as ->. injection E2 as E2. apply code_inj in E2; [|apply Ht|apply Ht']. subst t'.
        cbn [snd unrev]. apply Z.eqb_eq. rewrite Hdim by auto. lia.
      * intros [<-|H]; [left; now left|]. right. apply in_map_iff in H. destruct H as ([[i] [j]] & <- & H). cbn [snd unrev]. apply filter_In in H. destruct H as [H Ed]. cbn [snd unrev] in Ed.
        destruct (S1' _ _ H) as (s & t & Hs & Ht & Hls & Hlt & E1 & E2). injection E1 as ->. injection E2 as ->. rewrite Hdim in Ed by auto. apply Z.eqb_eq in Ed. exists t. split; auto. split; [lia|auto].
  - rewrite (@count_split _ (fun p : N * N => spec_dim (length d) (fst p)) m).
    + f_equal. apply map_ext_in. intros k Hk. apply in_seq in Hk. apply HPk; auto. lia.
    + intros [i j] H. apply HP in H. destruct H as [H (t' & Ht' & Hlt' & ->)]. destruct (S1' _ _ H) as (s & t & Hs & Ht & Hls & Hlt & E1 & E2). injection E1 as ->. injection E2 as E2. apply code_inj in E2; [|apply Ht'|apply Ht]. subst t'. cbn [fst].
      rewrite Hdim by auto. destruct s; [destruct Hs; congruence|]. cbn [length] in *. lia.
Qed.
Print Assumptions C71_homology_counts.

(** Four points: 3 + 3 + 1 pairings and 1 essential cell with max_dim 2, 3 + 3 pairings with max_dim 1, and 6 pairings
    with 2 essential cells for the boundary matrix with max_dim 2 -- the numbers asserted by the repo's own tests
    (phlite_rips/src/cohomology.rs:276-277, 310-311, phlite_rips/src/homology.rs:177-179). *)
Example C71_ex : let sum m := list_sum (map (fun k => binomial (4 - 1) (k + 1)) (seq 0 m)) in
  sum (2 + 1) = 7 /\ sum (1 + 1) = 6 /\ sum 2 = 6 /\ 1 + binomial (4 - 1) (2 + 1) = 2 /\
  rips_matrix (0 : nat_ord) line4 /\ codes_fit (2 ^ 64) (length line4) (2 + 2) /\ covers_simplices (length line4) (2 + 2) (map N.of_nat (seq 0 625)).
Proof. destruct C44_ex_hyps as (H1 & H2 & H3). cbn. auto 8. Qed.
