(** Property theorems C55 and C56: path homology from its definition. *)
From Verif Require Import Base Fields FieldsFacts Spec LinAlg Columns ColumnsFacts Matrices SpecMat MatricesFacts Reduction Graded StandardResults Duality GrpphCells Grpph SpecGrpph SpecPath SpecPH GrpphFacts GrpphColumns GrpphComplex GrpphReduce GrpphInvolution GrpphList PropGrpph GrpphRun PropGrpphRun Persistence RipsPersistence BettiUnique PathBasis PathBetti.
From Coq Require Import Ring Field Ring_theory Permutation Lia.
Set Implicit Arguments.

(** ** C55: the generating 2-cells are a basis of the boundary-invariant 2-paths at every time *)
Lemma gen_basis {K : coeffT} {F : ordT} (time : nat -> nat -> option F) n z inf t L : filtered_digraph time n z inf -> NoDup L ->
  (forall X, In X L <-> exists f, generator time X f /\ ole f t) -> omega_2_basis (K:=K) time n t L.
Proof.
  intros HG HN HL. split; [auto|]. split; [|split].
  - intros X HX. apply HL in HX. destruct HX as (f & Hf & Hle). exact (gen_invariant HG Hf Hle).
  - intros u Hu. exists (weight time n u). exact (spans HG HN HL Hu).
  - intros w. exact (independent HN HL w).
Qed.
Theorem C55_generators_basis :
  forall (K : coeffT) (F : ordT) (time : nat -> nat -> option F) (n : nat) (z inf : F),
  filtered_digraph time n z inf ->
  forall t, exists L, (forall X, In X L <-> exists f, generator time X f /\ ole f t) /\ omega_2_basis (K:=K) time n t L.
Proof.
  intros K F time n z inf HG t. pose proof (@listing_ok F time n z inf HG [] ltac:(intros ? ? []) (NoDup_nil _)) as HL.
  exists (two_cells (births_phi time z []) (listing time n z inf []) t). split.
  - intros X. eapply two_cells_gen. exact HL.
  - eapply gen_basis; [exact HG|eapply two_cells_nodup; exact HL|]. intros X. eapply two_cells_gen. exact HL.
Qed.
Print Assumptions C55_generators_basis.

Section HasEdge.
  Context {K : coeffT}.
  Add Field KFHE : (F_field K).
  Lemma gen_has_edge {F : ordT} (time : nat -> nat -> option F) n z inf X f : filtered_digraph time n z inf -> generator time X f ->
    exists x y, time x y <> None /\ cell_boundary (K:=K) (TwoCell X) (Edge x y) <> f0.
  Proof.
    intros HG Hf. assert (Hirr : forall v, time v v = None) by apply HG. assert (H1 : (f1 : option K) <> f0) by apply f1_neq0.
    destruct Hf as [a b f Ef|a b c f g Hac Ef Eg Hfg|a b c g Hac Hp Eg|a b b' c f Hac Hp Hb Hne Ef]; cbn [cell_boundary]; unfold path_boundary.
    - exists a, b. apply path_Some in Ef. destruct Ef as (g1 & g2 & E1 & E2 & _). split; [congruence|].
      destruct (Nat.eqb_spec b a) as [->|_]; [rewrite Hirr in E1; discriminate|]. rewrite !Nat.eqb_refl.
      intros H0. apply H1. rewrite <- H0. cbn [andb delta]. ring.
    - exists a, b. apply path_Some in Ef. destruct Ef as (g1 & g2 & E1 & E2 & _). split; [congruence|].
      destruct (Nat.eqb_spec b a) as [->|_]; [rewrite Hirr in E1; discriminate|]. destruct (Nat.eqb_spec a c); [congruence|].
      destruct (Nat.eqb_spec c b) as [->|_]; [rewrite Hirr in E2; discriminate|]. rewrite !Nat.eqb_refl.
      intros H0. apply H1. rewrite <- H0. cbn [andb delta]. ring.
    - destruct Hp as [(f & Ef & _) _]. exists a, b. apply path_Some in Ef. destruct Ef as (g1 & g2 & E1 & E2 & _). split; [congruence|].
      destruct (Nat.eqb_spec b a) as [->|_]; [rewrite Hirr in E1; discriminate|]. destruct (Nat.eqb_spec a c); [congruence|].
      destruct (Nat.eqb_spec c b) as [->|_]; [rewrite Hirr in E2; discriminate|]. rewrite !Nat.eqb_refl.
      intros H0. apply H1. rewrite <- H0. cbn [andb delta]. ring.
    - exists a, b'. apply path_Some in Ef. destruct Ef as (g1 & g2 & E1 & E2 & _). split; [congruence|].
      destruct Hp as [(f2 & Ef2 & _) _]. apply path_Some in Ef2. destruct Ef2 as (g3 & g4 & E3 & E4 & _).
      destruct (Nat.eqb_spec b' a) as [->|_]; [rewrite Hirr in E1; discriminate|]. destruct (Nat.eqb_spec a c); [congruence|].
      destruct (Nat.eqb_spec c b') as [->|_]; [rewrite Hirr in E2; discriminate|].
      destruct (Nat.eqb_spec b b') as [->|_]; [congruence|]. 
      destruct (Nat.eqb_spec b a) as [->|_]; [rewrite Hirr in E3; discriminate|]. rewrite !Nat.eqb_refl.
      intros H0. apply H1. rewrite <- H0. cbn [andb delta]. ring.
  Qed.
End HasEdge.

(** The same for the code: the 2-cells that occur in the coboundary columns of edges and whose filtration value is at
    most [t]. *)
Theorem C55_code_cells_basis :
  forall (K : coeffT) (F : ordT) (time : nat -> nat -> option F) (n : nat) (z inf : F) (fil : dfil F) (E : list (nat * nat)),
  filtered_digraph time n z inf -> (forall s t, s < n -> t < n -> fil s t = Ok (time s t)) ->
  (forall s t, In (s, t) E -> s < n /\ t < n) ->
  exists bm, build_primary_bridge_map fil n = Ok bm /\
  let D := grpph_coboundary (K:=K) z inf fil E n bm in
  forall (t : F) (L : list cell2), NoDup L ->
  (forall X, In X L <-> exists x y col f, time x y <> None /\ m_col D (Edge x y) = Ok col /\ coef col (TwoCell X : cell_ord) <> f0 /\
                          m_fil D (TwoCell X) = Ok f /\ ole f t) ->
  omega_2_basis (K:=K) time n t L.
Proof.
  intros K F time n z inf fil E HG Hfil HE. destruct (build_bridge_ok HG fil Hfil) as (bm & Eb & Hbm). exists bm. split; auto. intros D t L HN HL.
  apply (@gen_basis K F time n z inf t L HG HN). intros X. rewrite HL. clear HL.
  assert (Hcol : forall x y, time x y <> None -> m_col D (Edge x y) = Ok (gcol time n z inf E (Edge x y))).
  { intros x y Hxy. destruct (time x y) as [g|] eqn:Eg; [|congruence]. destruct (eb_time HG E _ _ Eg) as (h & Eh & _). apply eb_iff in Eh.
    exact (@gcol_ok K F time n z inf HG fil Hfil E HE bm Hbm (Edge x y) h Eh (le_n 1)). }
  split.
  - intros (x & y & col & f & Hxy & Hc & Hn & Hf & Hle). rewrite Hcol in Hc by auto.
    assert (Ec : col = gcol time n z inf E (Edge x y)) by congruence. rewrite Ec in Hn. apply coef_in in Hn. destruct Hn as (k & Hk).
    apply (gcol_in HG E HE (Edge x y) k (TwoCell X)) in Hk. destruct Hk as (_ & g & Hg). exists g. split; [exact Hg|].
    rewrite (gfil_ok HG fil Hfil E HE (TwoCell X) g Hg : m_fil D (TwoCell X) = Ok g) in Hf. injection Hf as <-. exact Hle.
  - intros (f & Hf & Hle).
    pose proof (@gen_has_edge K F time n z inf X f HG Hf) as H.
    destruct H as (x & y & Hxy & Hn). exists x, y, (gcol time n z inf E (Edge x y)), f. split; auto. split; [auto|]. split; [|split; [|exact Hle]].
    + rewrite (gcol_coef HG E HE (Edge x y) (TwoCell X) f); auto.
    + exact (gfil_ok HG fil Hfil E HE (TwoCell X) f Hf).
Qed.
Print Assumptions C55_code_cells_basis.
(** The diamond: at time 3 the square is there but not its triangle, at time 5 the collapsing triangle is too. *)
Example C55_ex :
  omega_2_basis (K:=Z3_coeff) ex_time 4 (3 : nat_ord) [DoubleEdge 0 1; DoubleEdge 1 0; LongSquare 0 1 2 3] /\
  omega_2_basis (K:=Z3_coeff) ex_time 4 (5 : nat_ord) [DoubleEdge 0 1; DoubleEdge 1 0; LongSquare 0 1 2 3; DirectedTriangle 0 1 3; DirectedTriangle 1 0 3].
Proof.
  pose proof (@listing_ok nat_ord ex_time 4 0 9 ex_digraph ex_edges ex_edges_ok ex_edges_nodup) as HL.
  split.
  - change [DoubleEdge 0 1; DoubleEdge 1 0; LongSquare 0 1 2 3] with (two_cells (births_phi ex_time 0 ex_edges) (listing ex_time 4 0 9 ex_edges) (3 : nat_ord)).
    eapply gen_basis; [exact ex_digraph|eapply two_cells_nodup; exact HL|]. intros X. eapply two_cells_gen. exact HL.
  - change [DoubleEdge 0 1; DoubleEdge 1 0; LongSquare 0 1 2 3; DirectedTriangle 0 1 3; DirectedTriangle 1 0 3] with (two_cells (births_phi ex_time 0 ex_edges) (listing ex_time 4 0 9 ex_edges) (5 : nat_ord)).
    eapply gen_basis; [exact ex_digraph|eapply two_cells_nodup; exact HL|]. intros X. eapply two_cells_gen. exact HL.
Qed.

(** ** C56: the bars are those of grounded persistent path homology *)
Lemma path_bars {K : coeffT} {F : ordT} (time : nat -> nat -> option F) n z inf E phi l (P : list (cell * cell)) (Es : list cell) :
  filtered_digraph time n z inf -> (forall s t, In (s, t) E -> s < n /\ t < n) -> cell_listing time n z E phi l ->
  NoDup P -> NoDup Es ->
  (forall i j, In (i, j) P <-> In j l /\ is_pair (phi : cell_ord -> F) (l : list cell_ord) (cell_boundary (K:=K) : cell_ord -> vec K cell_ord) i j) ->
  (forall c, In c Es <-> cell_dimension c <= 1 /\ is_essential (phi : cell_ord -> F) (l : list cell_ord) (cell_boundary (K:=K) : cell_ord -> vec K cell_ord) c) ->
  let al q s t := length (alive (phi : cell_ord -> F) (fun c : cell_ord => Z.of_nat (cell_dimension c)) (Es : list cell_ord) (P : list (cell_ord * cell_ord)) q s t) in
  forall s t b, (path_betti_0 (K:=K) time n z E s t b <-> b = al 0%Z s t) /\ (path_betti_1 (K:=K) time n z E s t b <-> b = al 1%Z s t).
Proof.
  intros HG HE HL NP NE HP HEs al s t b. pose proof HL as (Hl & Hin & Hphi & Hord).
  pose proof (@inv_complex K F time n z inf E HG HE phi l HL) as Hcx. pose proof (@bd_graded K l) as Hgr.
  destruct (@barcode_upto K F cell_ord phi (fun c : cell_ord => Z.of_nat (cell_dimension c)) (-1)%Z l (cell_boundary (K:=K)) 1%Z Hl Hcx Hgr Hord Es P NE NP) as (Z & _ & _ & HZ).
  - intros i j. split; [|intros [_ H]; now apply HP]. intros Hij. apply HP in Hij. destruct Hij as [Hj Hp]. split; auto.
    assert (Hg := @pair_grade K F cell_ord phi l (cell_boundary (K:=K)) (per_fin (phi : cell_ord -> F) Hcx) (fun c : cell_ord => cdim c) (-1)%Z Hgr i j Hp).
    cbv beta in Hg. assert (cell_dimension j <= 2) by (destruct j; simpl; lia). revert Hg H. generalize (cell_dimension i) (cell_dimension j). intros; lia.
  - intros c. split; [intros Hc; apply HEs in Hc; destruct Hc as [H1 H2]; split; [lia|exact H2]|intros [H1 H2]; apply HEs; split; [lia|exact H2]].
  - assert (Hb : forall q, (q <= 1)%Z -> persistent_betti (phi : cell_ord -> F) (fun c : cell_ord => Z.of_nat (cell_dimension c)) (-1) (l : list cell_ord) (cell_boundary (K:=K) : cell_ord -> vec K cell_ord) q s t b <-> b = al q s t).
    { intros q Hq. specialize (HZ q s t Hq).
      assert (Hb : persistent_betti (phi : cell_ord -> F) (fun c : cell_ord => Z.of_nat (cell_dimension c)) (-1) (l : list cell_ord) (cell_boundary (K:=K) : cell_ord -> vec K cell_ord) q s t (al q s t)) by (exists cell_ord, (alive (phi : cell_ord -> F) (fun c : cell_ord => Z.of_nat (cell_dimension c)) (Es : list cell_ord) P q s t), Z; auto).
      split; [intros Hx; eapply betti_unique; eauto|intros ->; auto]. }
    split.
    + rewrite <- Hb by lia. apply (path_betti_0_ok HG HE HL).
    + rewrite <- Hb by lia. apply (path_betti_1_ok HG HE HL).
Qed.

Lemma pair_times {K : coeffT} {F : ordT} (time : nat -> nat -> option F) n z inf E phi l i j :
  filtered_digraph time n z inf -> (forall s t, In (s, t) E -> s < n /\ t < n) -> cell_listing time n z E phi l -> In j l ->
  is_pair (phi : cell_ord -> F) (l : list cell_ord) (cell_boundary (K:=K) : cell_ord -> vec K cell_ord) i j -> ole (phi i) (phi j).
Proof.
  intros HG HE HL Hj Hp. pose proof HL as (Hl & Hin & Hphi & Hord).
  pose proof (@inv_complex K F time n z inf E HG HE phi l HL) as Hcx. pose proof (@bd_graded K l) as Hgr.
  assert (Hg := @pair_grade K F cell_ord phi l (cell_boundary (K:=K)) (per_fin (phi : cell_ord -> F) Hcx) (fun c : cell_ord => cdim c) (-1)%Z Hgr i j Hp).
  destruct Hp as (_ & (x & Hx & Hlead) & _). destruct Hlead as [Hn _]. apply lincomb_nonzero in Hn. destruct Hn as (c & Hc & Hxc & Hci).
  pose proof (Hgr c i Hc Hci) as Hgc. cbv beta in Hg, Hgc.
  pose proof Hc as Hcb. apply Hin in Hcb. destruct Hcb as (f & Hf). destruct (bd_births (K:=K) HG E HE _ _ _ Hf Hci) as (h & Hh & Hle).
  rewrite (Hphi _ _ Hh). eapply ole_trans; [exact Hle|]. rewrite <- (Hphi _ _ Hf).
  destruct Hx as (B1 & B2 & EB & _ & Hafter). pose proof Hc as Hc'. rewrite EB in Hc'. apply in_app_iff in Hc'. destruct Hc' as [Hc'|[->|Hc']].
  - apply in_split in Hc'. destruct Hc' as (A & B & ->). assert (Hb : before (l : list cell_ord) c j) by (exists A, B, B2; rewrite EB, <- app_assoc; reflexivity).
    destruct (Hord c j Hb) as [H|[H _]]; [|apply olt_le; exact H|rewrite H; apply ole_refl]. revert Hg Hgc. generalize (cdim c) (cdim i) (cdim j). intros; lia.
  - apply ole_refl.
  - exfalso. apply Hxc. auto.
Qed.

(** Over any field: the pairs and essential cells of the reduction. *)
Theorem C56_reduce_path_homology :
  forall (HI : heaps) (K : coeffT) (F : ordT) (time : nat -> nat -> option F) (n : nat) (z inf : F) (fil : dfil F) (E : list (nat * nat)),
  filtered_digraph time n z inf -> (forall s t, s < n -> t < n -> fil s t = Ok (time s t)) ->
  (forall s t, In (s, t) E -> s < n /\ t < n) -> NoDup E ->
  exists N : nat, forall fuel, N < fuel ->
  exists d rc dg, grpph_reduce HI fuel z inf (K:=K) fil E n = Ok (d, (rc, dg)) /\
    let Es := map (@unrev cell_ord) (essential dg) in
    let P := map (fun p : rC * rC => (unrev (snd p), unrev (fst p))) (pairings dg) in
    forall phi : cell_ord -> F, (forall c f, cell_birth time n z E c f -> phi c = f) ->
    let al q s t := length (alive phi (fun c : cell_ord => Z.of_nat (cell_dimension c)) Es P q s t) in
    forall s t b, (path_betti_0 (K:=K) time n z E s t b <-> b = al 0%Z s t) /\ (path_betti_1 (K:=K) time n z E s t b <-> b = al 1%Z s t).
Proof.
  intros HI K F time n z inf fil E HG Hfil HE HEn. destruct (C48_cells_listed HG HE HEn) as (phi0 & l & HL0).
  exists (length l). intros fuel Hfuel.
  destruct (@C50_reduce HI K F time n z inf fil E HG Hfil HE HEn phi0 l fuel HL0 Hfuel) as (d & rc & dg & Erun & N1 & N2 & Hp & Hes).
  exists d, rc, dg. split; auto. intros Es P phi Hphi.
  assert (Hsame : forall c, In c l -> phi c = phi0 c).
  { intros c Hc. destruct HL0 as (_ & Hin & Hphi0 & _). apply Hin in Hc. destruct Hc as (f & Hf). rewrite (Hphi _ _ Hf), (Hphi0 _ _ Hf). reflexivity. }
  assert (NP : NoDup P).
  { apply FinFun.Injective_map_NoDup; auto. intros [[j] [i]] [[j'] [i']]. cbn [fst snd unrev]. intros [= -> ->]. reflexivity. }
  assert (NE : NoDup Es).
  { apply FinFun.Injective_map_NoDup; auto. intros [c] [c']. cbn [unrev]. intros ->. reflexivity. }
  assert (HP : forall i j, In (i, j) P <-> In j l /\ is_pair (phi0 : cell_ord -> F) (l : list cell_ord) (cell_boundary (K:=K) : cell_ord -> vec K cell_ord) i j).
  { intros i j. rewrite <- Hp. unfold P. rewrite in_map_iff. split.
    - intros ([[j'] [i']] & Eq & H). cbn [fst snd unrev] in Eq. injection Eq as -> ->. exact H.
    - intros H. exists ((Reverse j : rC), (Reverse i : rC)). split; auto. }
  assert (HEs : forall c, In c Es <-> cell_dimension c <= 1 /\ is_essential (phi0 : cell_ord -> F) (l : list cell_ord) (cell_boundary (K:=K) : cell_ord -> vec K cell_ord) c).
  { intros c. rewrite <- Hes. unfold Es. rewrite in_map_iff. split.
    - intros ([c'] & Eq & H). cbn [unrev] in Eq. subst c'. exact H.
    - intros H. exists (Reverse c : rC). split; auto. }
  intros al s t b.
  assert (Hal : forall q, al q s t = length (alive (phi0 : cell_ord -> F) (fun c : cell_ord => Z.of_nat (cell_dimension c)) Es P q s t)).
  { intros q. unfold al, alive. rewrite !app_length, !map_length. f_equal; f_equal; apply filter_ext_in.
    - intros c Hc. apply HEs in Hc. rewrite Hsame; auto. apply Hc.
    - intros [i j] Hij. apply HP in Hij. destruct Hij as [Hj Hij]. cbn [fst snd].
      assert (Hi : In i l). { eapply (@pair_rows_in K F cell_ord); [|exact Hij]. intros c r. destruct HL0 as (_ & Hin & _). exact (@bd_rows K F time n z inf HG E HE l Hin c r). }
      now rewrite !Hsame. }
  rewrite !Hal. exact (@path_bars K F time n z inf E phi0 l P Es HG HE HL0 NP NE HP HEs s t b).
Qed.
Print Assumptions C56_reduce_path_homology.

Lemma grpph_path_homology :
  forall (HI : heaps) (F : ordT) (time : nat -> nat -> option F) (n : nat) (z inf : F) (edges : list (nat * nat * F)) (dijkstra : nat -> nat -> option F),
  (N.of_nat n < 65536)%N -> (forall s t w, In (s, t, w) edges -> s < n /\ t < n) ->
  filtered_digraph time n z inf -> (forall s t, s < n -> t < n -> s <> t -> dijkstra s t = time s t) ->
  forall (phi : cell -> F) (l : list cell) (fuel : nat), cell_listing time n z (map fst edges) phi l -> length l < fuel ->
  exists ess0 ess1 prs0 prs1, grpph HI fuel z inf n edges dijkstra = Ok ([ess0; ess1], [prs0; prs1]) /\
    (forall birth death, In (birth, death) (prs0 ++ prs1) -> olt birth death) /\
    forall s t, ole s t -> forall b,
      (path_betti_0 (K:=Z2_coeff) time n z (map fst edges) s t b <-> b = bars_alive s t ess0 prs0) /\
      (path_betti_1 (K:=Z2_coeff) time n z (map fst edges) s t b <-> b = bars_alive s t ess1 prs1).
Proof.
  intros HI F time n z inf edges dijkstra Hn He HG Hd phi l fuel HL Hfuel.
  assert (HE : forall s t, In (s, t) (map fst edges) -> s < n /\ t < n).
  { intros s t H. apply in_map_iff in H. destruct H as ([[i j] w] & [= <- <-] & H). eapply He; eauto. }
  destruct (@C50_grpph HI F time n z inf edges dijkstra Hn He HG Hd phi l fuel HL Hfuel) as (ess & prs & Erun & P & Es & NP & NE & HP & HEs & Eess & Eprs).
  subst ess prs. cbn [map] in Erun. do 4 eexists. split; [exact Erun|].
  assert (Hmono : forall i j, In (i, j) P -> phi i <> phi j -> olt (phi i) (phi j)).
  { intros i j Hij Hne. apply HP in Hij. destruct Hij as [Hj Hij].
    assert (Hle : ole (phi i) (phi j)) by exact (pair_times HG HE HL Hj Hij).
    destruct (olt_total (phi i) (phi j)) as [|[|Hgt]]; auto; [contradiction|]. apply olt_not_le in Hgt. contradiction. }
  split.
  - intros birth death Hin. apply in_app_iff in Hin. destruct Hin as [Hin|Hin]; apply in_map_iff in Hin; destruct Hin as ([i j] & [= <- <-] & Hin);
      apply filter_In in Hin; destruct Hin as [Hin Hf]; apply andb_prop in Hf; destruct Hf as [_ Hf]; apply negb_true_iff, oeqb_neq in Hf; apply Hmono; auto.
  - intros s t Hst b.
    assert (Hal : forall k, length (alive (phi : cell_ord -> F) (fun c : cell_ord => Z.of_nat (cell_dimension c)) (Es : list cell_ord) (P : list (cell_ord * cell_ord)) (Z.of_nat k) s t) =
      bars_alive s t (map phi (filter (fun c => cell_dimension c =? k) Es)) (map (fun p : cell * cell => (phi (fst p), phi (snd p)))
                (filter (fun p : cell * cell => (cell_dimension (fst p) =? k) && negb (oeqb (phi (fst p)) (phi (snd p)))) P))).
    { intros k. unfold alive, bars_alive. rewrite app_length, map_length.
      assert (Hfm : forall A B (f : A -> B) p L, length (filter p (map f L)) = length (filter (fun x => p (f x)) L)).
      { intros A B f p L. induction L as [|a L IH]; auto. cbn [map filter]. destruct (p (f a)); cbn [length]; auto. }
      assert (Hff : forall A (f p : A -> bool) L, filter p (filter f L) = filter (fun x => f x && p x) L).
      { intros A f p L. induction L as [|a L IH]; auto. cbn [filter]. destruct (f a); cbn [filter andb]; [destruct (p a)|]; congruence. }
      rewrite !Hfm, !Hff. f_equal; f_equal; apply filter_ext_in.
      - intros c _. f_equal. destruct (Nat.eqb_spec (cell_dimension c) k) as [->|Hne]; [apply Z.eqb_refl|]. apply Z.eqb_neq. lia.
      - intros [i j] Hij. cbn [fst snd]. replace (Z.of_nat (cell_dimension i) =? Z.of_nat k)%Z with (cell_dimension i =? k).
        2:{ destruct (Nat.eqb_spec (cell_dimension i) k) as [->|Hne]; [symmetry; apply Z.eqb_refl|]. symmetry. apply Z.eqb_neq. lia. }
        rewrite <- !andb_assoc. f_equal. destruct (oeqb_spec (phi i) (phi j)) as [Eq|_]; [|reflexivity]. cbn [negb andb].
        destruct (oleb_spec (phi i) s) as [H1|]; auto. destruct (oltb_spec t (phi j)) as [H2|]; auto. exfalso.
        rewrite <- Eq in H2. apply olt_not_le in H2. apply H2. eapply ole_trans; eauto. }
    pose proof (@path_bars Z2_coeff F time n z inf (map fst edges) phi l P Es HG HE HL NP NE HP HEs s t b) as [H0 H1]. cbv zeta in H0, H1.
    rewrite H0, H1. change 0%Z with (Z.of_nat 0). change 1%Z with (Z.of_nat 1). rewrite !Hal. split; reflexivity.
Qed.

(** What [grpph] returns: the number of bars of dimension [k] born by [s] and alive at [t] is the dimension of the
    image of H_k at [s] in H_k at [t]. *)
Theorem C56_grpph_path_homology :
  forall (HI : heaps) (F : ordT) (time : nat -> nat -> option F) (n : nat) (z inf : F) (edges : list (nat * nat * F)) (dijkstra : nat -> nat -> option F),
  (N.of_nat n < 65536)%N -> (forall s t w, In (s, t, w) edges -> s < n /\ t < n) ->
  filtered_digraph time n z inf -> (forall s t, s < n -> t < n -> s <> t -> dijkstra s t = time s t) ->
  exists N : nat, forall fuel, N < fuel ->
  exists ess0 ess1 prs0 prs1, grpph HI fuel z inf n edges dijkstra = Ok ([ess0; ess1], [prs0; prs1]) /\
    (forall birth death, In (birth, death) (prs0 ++ prs1) -> olt birth death) /\
    forall s t, ole s t -> forall b,
      (path_betti_0 (K:=Z2_coeff) time n z (map fst edges) s t b <-> b = bars_alive s t ess0 prs0) /\
      (path_betti_1 (K:=Z2_coeff) time n z (map fst edges) s t b <-> b = bars_alive s t ess1 prs1).
Proof.
  intros HI F time n z inf edges dijkstra Hn He HG Hd.
  destruct (C48_cells_listed HG (@run_E F n edges Hn He) (edge_set_nodup edges)) as (phi & l & HL). exists (length l). intros fuel Hfuel.
  apply (@grpph_path_homology HI F time n z inf edges dijkstra Hn He HG Hd phi l fuel); auto.
  eapply listing_same; [|exact HL]. intros s t. apply (@run_same F n edges Hn He).
Qed.
Print Assumptions C56_grpph_path_homology.

(** The diamond of C50_ex: the square 0 -> {1, 2} -> 3 is a cycle of dimension 1 from the start and bounds at time 3, when
    both two-paths are there. *)
Example C56_ex : exists ess0 ess1 prs0 prs1,
  grpph list_heaps 20 (0 : nat_ord) 9 4 ex_weighted ex_time = Ok ([ess0; ess1], [prs0; prs1]) /\
  let betti0 (s t b : nat) := path_betti_0 (K:=Z2_coeff) ex_time 4 (0 : nat_ord) (map fst ex_weighted) (s : nat_ord) (t : nat_ord) b in
  let betti1 (s t b : nat) := path_betti_1 (K:=Z2_coeff) ex_time 4 (0 : nat_ord) (map fst ex_weighted) (s : nat_ord) (t : nat_ord) b in
  (forall b, betti0 0 9 b <-> b = 1) /\ (forall b, betti1 0 2 b <-> b = 1) /\ (forall b, betti1 0 3 b <-> b = 0) /\ (forall b, betti1 2 2 b <-> b = 1) /\ (forall b, betti1 4 4 b <-> b = 0).
Proof.
  destruct C50_ex_hypotheses as (H1 & H2 & H3 & H4).
  destruct (@grpph_path_homology list_heaps nat_ord ex_time 4 0 9 ex_weighted ex_time ltac:(reflexivity) H1 H2 ltac:(auto) _ _ 20 H3) as (e0 & e1 & p0 & p1 & Erun & _ & H).
  { rewrite H4. lia. }
  exists e0, e1, p0, p1. split; auto. vm_compute in Erun. injection Erun as <- <- <- <-. cbv zeta.
  assert (Hle : forall s t : nat, s <= t -> ole (s : nat_ord) (t : nat_ord)) by (intros s t Hst; unfold ole; cbn [cmp nat_ord]; rewrite Nat.compare_gt_iff; lia).
  repeat apply conj; intros b; match goal with |- context [path_betti_0 _ _ _ _ ?s ?t _] => exact (proj1 (H s t (Hle s t ltac:(lia)) b)) | |- context [path_betti_1 _ _ _ _ ?s ?t _] => exact (proj2 (H s t (Hle s t ltac:(lia)) b)) end.
Qed.
