(** Facts about the runs of phlite_grpph/src/lib.rs. *)
From Verif Require Import Base Fields FieldsFacts Spec LinAlg Columns ColumnsFacts Matrices SpecMat MatricesFacts Reduction Graded StandardResults Duality Rips RipsBasis PropMatrices PropClearing RipsComplex GrpphCells Grpph SpecGrpph GrpphFacts GrpphColumns GrpphComplex GrpphReduce.
From Coq Require Import Ring_theory Sorted Permutation Lia.
Set Implicit Arguments.

Notation rC := (rev_ord cell_ord).

(** ** The Dijkstra table and the edge set *)
Lemma as_u16_small x : (N.of_nat x < 65536)%N -> as_u16 x = x.
Proof. intros H. unfold as_u16. rewrite N.mod_small by exact H. apply Nat2N.id. Qed.

Lemma map_index {A B} (f : A -> B) l i x : nth_error l i = Some x -> index (map f l) i = Ok (f x).
Proof. intros H. apply index_Ok. rewrite nth_error_map, H. reflexivity. Qed.
Lemma nth_error_seq0 n i : i < n -> nth_error (seq 0 n) i = Some i.
Proof. intros H. rewrite (nth_error_nth' _ 0) by (rewrite seq_length; lia). now rewrite seq_nth. Qed.
Lemma table_ok {F : ordT} (n : nat) (dijkstra : nat -> nat -> option F) s t : s < n -> t < n ->
  vec_filtration (build_filtration n dijkstra) s t = Ok (if s =? t then None else dijkstra s t).
Proof.
  intros Hs Ht. unfold vec_filtration, build_filtration. rewrite (map_index _ _ _ (nth_error_seq0 Hs)). cbn [bind].
  exact (map_index _ _ _ (nth_error_seq0 Ht)).
Qed.

Lemma edge_set_in {F : ordT} (edges : list (nat * nat * F)) (e : edge_ord) :
  In e (build_edge_set edges) <-> exists p, In p edges /\ e = (as_u16 (fst (fst p)), as_u16 (snd (fst p))).
Proof.
  unfold build_edge_set. 
  assert (H : forall acc : list edge_ord, In e (fold_left (fun s (e : nat * nat * F) => @set_insert edge_ord (as_u16 (fst (fst e)), as_u16 (snd (fst e))) s) edges acc) <->
     In e acc \/ exists p, In p edges /\ e = (as_u16 (fst (fst p)), as_u16 (snd (fst p)))).
  { induction edges as [|p edges IH]; intros acc; cbn [fold_left].
    - split; [auto|]. intros [|(p & [] & _)]; auto.
    - rewrite IH, (in_set_insert (K:=edge_ord)). split.
      + intros [[->|H]|(q & Hq & ->)]; auto; right; [exists p|exists q]; split; simpl; auto.
      + intros [H|(q & [<-|Hq] & ->)]; auto. right. eauto. }
  rewrite H. split; [intros [[]|]; auto|auto].
Qed.
Lemma edge_set_nodup {F : ordT} (edges : list (nat * nat * F)) : NoDup (build_edge_set edges).
Proof.
  unfold build_edge_set. assert (H : NoDup (@nil edge_ord)) by constructor. revert H. generalize (@nil edge_ord).
  induction edges as [|p edges IH]; intros acc Hacc; cbn [fold_left]; auto. apply IH. now apply (nodup_set_insert (K:=edge_ord)).
Qed.
Lemma edge_set_small {F : ordT} (n : nat) (edges : list (nat * nat * F)) :
  (N.of_nat n <= 65536)%N -> (forall p, In p edges -> fst (fst p) < n /\ snd (fst p) < n) ->
  forall s t, In (s, t) (build_edge_set edges) <-> In (s, t) (map fst edges).
Proof.
  intros Hn He s t. rewrite edge_set_in, in_map_iff. split.
  - intros ([[i j] w] & Hp & Eq). pose proof (He _ Hp) as [H1 H2]. cbn [fst snd] in *. rewrite !as_u16_small in Eq by lia. exists (i, j, w). split; auto.
  - intros ([[i j] w] & Eq & Hp). pose proof (He _ Hp) as [H1 H2]. cbn [fst snd] in *. injection Eq as <- <-. exists (i, j, w). split; auto. cbn [fst snd]. rewrite !as_u16_small by lia. reflexivity.
Qed.

(** births depend on the edge set only through membership *)
Lemma birth_same {F : ordT} (time : nat -> nat -> option F) n z E E' : (forall s t : nat, In (s, t) E <-> In (s, t) E') ->
  forall c f, cell_birth time n z E c f <-> cell_birth time n z E' c f.
Proof. intros H c f. destruct c as [s|s t|X]; cbn [cell_birth]; try tauto. unfold edge_birth. rewrite H. tauto. Qed.
Lemma listing_same {F : ordT} (time : nat -> nat -> option F) n z E E' phi l : (forall s t : nat, In (s, t) E <-> In (s, t) E') ->
  cell_listing time n z E phi l -> cell_listing time n z E' phi l.
Proof.
  intros H (H1 & H2 & H3 & H4). pose proof (birth_same time n z E E' H) as Hb. split; auto. split; [|split; auto].
  - intros c. rewrite H2. split; intros (f & Hf); exists f; now apply Hb.
  - intros c f Hf. apply H3. now apply Hb.
Qed.

(** ** The reduction *)
Section Reduction.
  Variable HI : heaps.
  Context {K : coeffT} {F : ordT} (time : nat -> nat -> option F) (n : nat) (z inf : F) (fil : dfil F) (E : list (nat * nat)).
  Hypothesis HG : filtered_digraph time n z inf.
  Hypothesis Hfil : forall s t, s < n -> t < n -> fil s t = Ok (time s t).
  Hypothesis HE : forall s t, In (s, t) E -> s < n /\ t < n.
  Hypothesis HEn : NoDup E.
  Variables (phi : cell -> F) (l : list cell) (fuel : nat).
  Hypothesis HL : cell_listing time n z E phi l.
  Hypothesis Hfuel : length l < fuel.

  Lemma reduce_spec : exists d rc dg,
    grpph_reduce HI fuel z inf (K:=K) fil E n = Ok (d, (rc, dg)) /\
    (forall c, m_fil d c = grpph_filtration_value z fil E c) /\
    NoDup (pairings dg) /\ NoDup (essential dg) /\
    (forall i j : cell, In ((Reverse j : rC), (Reverse i : rC)) (pairings dg) <-> In j l /\ is_pair (phi : cell_ord -> F) (l : list cell_ord) (cell_boundary (K:=K) : cell_ord -> vec K cell_ord) i j) /\
    (forall c : cell, In (Reverse c : rC) (essential dg) <-> cell_dimension c <= 1 /\ is_essential (phi : cell_ord -> F) (l : list cell_ord) (cell_boundary (K:=K) : cell_ord -> vec K cell_ord) c).
  Proof.
    destruct HL as (Hl & Hin & Hphi & Hord). destruct (build_bridge_ok HG fil Hfil) as (bm & Eb & Hbm).
    unfold grpph_reduce, grpph_coboundary_build. rewrite Eb. cbn [bind]. rewrite (@basis_built F time n z fil Hfil E). cbn [bind].
    set (b := sb_total (cell_split (gbases time n z E))).
    pose proof (@grpph_block_complex K F time n z inf HG fil Hfil E HE HEn phi Hphi bm Hbm b) as HB.
    destruct (@C32_clearing_intrinsic HI K rC (rev_ord F) _ _ _ _ _ HB fuel) as (rc & dg & Er & N1 & N2 & Hp).
    { eapply Nat.le_lt_trans; [|exact Hfuel]. exact (@GD_rows K F time n z inf HG fil Hfil E HE bm Hbm b l Hin). }
    eexists. exists rc, dg. split; [unfold GD, gsplit in Er; rewrite Er; reflexivity|]. split; [reflexivity|]. split; auto. split; auto.
    destruct (Hp _ (@glr_nodup l Hl) (@glr_blocks F time n z inf HG E HE l Hin)) as [P1 P2].
    { intros blk x y. exact (@glr_before F time n z inf HG E HE HEn phi Hphi l Hin Hord blk x y). }
    split.
    - intros i j. rewrite P1. symmetry. exact (@grpph_pairs K F time n z inf HG fil Hfil E HE phi bm Hbm b l Hl Hin Hord i j).
    - intros c. rewrite P2. exact (@grpph_essential K F time n z inf HG fil Hfil E HE HEn phi Hphi bm Hbm b l Hl Hin Hord c).
  Qed.
End Reduction.

(** ** Translation to the Python result *)
Section Translate.
  Context {F : ordT} (fil : cell_ord -> res F) (phi : cell -> F).

  Lemma translate_essential_spec (ess : list rC) :
    (forall c : rC, In c ess -> fil (unrev c) = Ok (phi (unrev c)) /\ cell_dimension (unrev c) <= 1) ->
    translate_essential fil ess = Ok (map (fun k => map phi (filter (fun c => cell_dimension c =? k) (map (@unrev cell_ord) ess))) [0; 1]).
  Proof.
    unfold translate_essential. cbn [map].
    assert (H : forall a0 a1, (forall c : rC, In c ess -> fil (unrev c) = Ok (phi (unrev c)) /\ cell_dimension (unrev c) <= 1) ->
      foldM (fun (acc : list (list F)) (idx : rC) => do f_val <- fil (unrev idx); push_at acc (cell_dimension (unrev idx)) f_val) ess [a0; a1] =
      Ok [a0 ++ map phi (filter (fun c => cell_dimension c =? 0) (map (@unrev cell_ord) ess)); a1 ++ map phi (filter (fun c => cell_dimension c =? 1) (map (@unrev cell_ord) ess))]).
    { induction ess as [|[c] ess IH]; intros a0 a1 H; [cbn; now rewrite !app_nil_r|].
      destruct (H (Reverse c) (or_introl eq_refl)) as [Hf Hd]. cbn [foldM]. cbn [unrev] in *. rewrite Hf. cbn [bind map].
      assert (H' : forall c : rC, In c ess -> fil (unrev c) = Ok (phi (unrev c)) /\ cell_dimension (unrev c) <= 1) by (intros; apply H; simpl; auto).
      cbn [filter unrev]. destruct c as [s|s t|X]; cbn [cell_dimension push_at bind Nat.eqb map] in *; [| |lia];
        rewrite IH by exact H'; rewrite <- app_assoc; reflexivity. }
    intros H'. rewrite H by exact H'. reflexivity.
  Qed.
  Lemma translate_pairings_spec (ps : list (rC * rC)) :
    (forall p, In p ps -> fil (unrev (fst p)) = Ok (phi (unrev (fst p))) /\ fil (unrev (snd p)) = Ok (phi (unrev (snd p))) /\ cell_dimension (unrev (snd p)) <= 1) ->
    translate_pairings fil ps = Ok (map (fun k => map (fun p : cell * cell => (phi (fst p), phi (snd p)))
       (filter (fun p : cell * cell => (cell_dimension (fst p) =? k) && negb (oeqb (phi (fst p)) (phi (snd p)))) (map (fun p : rC * rC => (unrev (snd p) : cell, unrev (fst p) : cell)) ps))) [0; 1]).
  Proof.
    unfold translate_pairings. cbn [map].
    set (P k ps := map (fun p : cell * cell => (phi (fst p), phi (snd p)))
       (filter (fun p : cell * cell => (cell_dimension (fst p) =? k) && negb (oeqb (phi (fst p)) (phi (snd p)))) (map (fun p : rC * rC => (unrev (snd p) : cell, unrev (fst p) : cell)) ps))).
    assert (H : forall a0 a1, (forall p, In p ps -> fil (unrev (fst p)) = Ok (phi (unrev (fst p))) /\ fil (unrev (snd p)) = Ok (phi (unrev (snd p))) /\ cell_dimension (unrev (snd p)) <= 1) ->
      foldM (fun (acc : list (list (F * F))) (p : rC * rC) =>
      do birth_f <- fil (unrev (snd p)); do death_f <- fil (unrev (fst p));
      if oeqb death_f birth_f then Ok acc else push_at acc (cell_dimension (unrev (snd p))) (birth_f, death_f)) ps [a0; a1] = Ok [a0 ++ P 0 ps; a1 ++ P 1 ps]).
    { induction ps as [|[[j] [i]] ps IH]; intros a0 a1 H; [cbn; now rewrite !app_nil_r|].
      destruct (H (Reverse j, Reverse i) (or_introl eq_refl)) as (H1 & H2 & H3). cbn [foldM]. cbn [unrev fst snd] in *. rewrite H1, H2. cbn [bind].
      assert (H' : forall p, In p ps -> fil (unrev (fst p)) = Ok (phi (unrev (fst p))) /\ fil (unrev (snd p)) = Ok (phi (unrev (snd p))) /\ cell_dimension (unrev (snd p)) <= 1) by (intros; apply H; simpl; auto).
      unfold P. cbn [map filter fst snd unrev]. destruct (oeqb_spec (phi j) (phi i)) as [Eq|Ne].
      - rewrite Eq. destruct (oeqb_spec (phi i) (phi i)); [|congruence]. cbn [negb]. rewrite !andb_false_r. cbn [bind]. apply IH. exact H'.
      - destruct (oeqb_spec (phi i) (phi j)); [congruence|]. cbn [negb]. rewrite !andb_true_r.
        destruct i as [s|s t|X]; cbn [cell_dimension push_at bind Nat.eqb map fst snd] in *; [| |lia]; rewrite IH by exact H'; rewrite <- app_assoc; reflexivity. }
    intros H'. rewrite H by exact H'. reflexivity.
  Qed.
End Translate.
