(** Property theorems C54: the diagram of the Rips cohomology pipeline is the persistent homology of the Vietoris-Rips
    filtration in dimensions up to [max_dim]. *)
From Verif Require Import Base Fields FieldsFacts Spec LinAlg Columns ColumnsFacts Matrices SpecMat MatricesFacts Reduction StandardProofs ReadOffProofs Graded StandardResults ClearingProofs PropClearing Duality PropDuality Rips SpecRips RipsCode RipsFacts RipsBasis PropRips RipsComplex RipsCohomology PropRipsCohomology SpecPH Persistence BettiUnique RipsPersistence.
From Coq Require Import Sorted Lia.
Set Implicit Arguments.

Lemma simplex_length n s : simplex n s -> length s <= n.
Proof.
  intros (_ & Hs & Hb). rewrite <- (seq_length n 0). apply NoDup_incl_length; [now apply sorted_nodup|].
  intros v Hv. apply in_seq. rewrite Forall_forall in Hb. apply Hb in Hv. lia.
Qed.

Section Main.
  Context {K : coeffT} {F : ordT} (z : F) (d : list (list F)) (m : nat).
  Notation n := (length d).
  Hypothesis Hd : rips_matrix z d.
  Hypothesis Hm : 1 <= m.
  Variables (phi : N -> F) (D : N -> vec K N) (dim : N -> Z).
  Hypothesis Hphi : rips_filtration z d phi.
  Hypothesis HD : rips_boundary_matrix n D.
  Hypothesis Hdim : simplex_dim n dim.
  Notation rp := (rev_filtration phi : rN -> rev_ord F).

  (** the simplices with one vertex more than the basis of the run *)
  Definition big : list N_ord := all_cells z d (m + 1).
  Lemma big_order : rips_order d (phi : N_ord -> F) (m + 2) big.
  Proof. unfold big. replace (m + 2) with (m + 1 + 1) by lia. apply all_cells_order; auto. lia. Qed.
  Lemma big_lists : lists_simplices n (m + 2) big.
  Proof. split; apply big_order. Qed.
  Lemma big_graded_order : graded_order (phi : N_ord -> F) dim big.
  Proof.
    intros x y Hb Hg. pose proof (before_in Hb) as [Hx Hy]. apply big_lists in Hx, Hy. destruct Hx as (s & Hs & _ & ->). destruct Hy as (t & Ht & _ & ->).
    rewrite !Hdim in Hg by auto. apply big_order; auto. lia.
  Qed.
  Definition small : list N_ord := filter (fun c => (dim c <=? Z.of_nat m)%Z) big.
  Lemma small_in c : In c small <-> exists s, simplex n s /\ length s <= m + 1 /\ c = code n s.
  Proof.
    unfold small. rewrite filter_In. split.
    - intros [Hc Hle]. apply big_lists in Hc. destruct Hc as (s & Hs & Hls & ->). apply Z.leb_le in Hle. rewrite Hdim in Hle by auto. exists s. split; auto. split; auto. lia.
    - intros (s & Hs & Hls & ->). split; [apply big_lists; exists s; split; auto; split; auto; lia|]. apply Z.leb_le. rewrite Hdim by auto. lia.
  Qed.
  Lemma small_order : rips_order d (phi : N_ord -> F) (m + 1) small.
  Proof.
    split; [apply NoDup_filter; apply big_lists|]. split; [apply small_in|].
    intros s t Hs Ht El Hb. apply big_order; auto. eapply before_filter; eauto.
  Qed.

  (** the coboundary matrix *)
  Definition every : list N := all_cells z d (n + 1).
  Lemma every_in r : In r every <-> exists t, simplex n t /\ r = code n t.
  Proof.
    clear Hm. unfold every. rewrite all_cells_in by lia. split; [intros (s & H1 & _ & H2); eauto|]. intros (s & H1 & H2). exists s. split; auto. split; auto. pose proof (simplex_length H1). lia.
  Qed.
  Definition Dc : N -> vec K N := fun c r => if in_dec N.eq_dec r every then D r c else f0.
  Lemma Dc_coboundary : rips_coboundary_matrix n Dc.
  Proof.
    split.
    - intros s t i Hs Ht Hf. unfold Dc. destruct (in_dec N.eq_dec (code n t) every) as [_|Hno]; [now apply HD|exfalso; apply Hno; apply every_in; eauto].
    - intros s r Hs Hn. unfold Dc in Hn. destruct (in_dec N.eq_dec r every) as [Hr|]; [|congruence]. apply every_in in Hr. destruct Hr as (t & Ht & ->).
      apply HD in Hn; auto. destruct Hn as (s' & i & Hs' & Hf & E). apply code_inj in E; [|apply Hs|apply Hs']. subst s'. eauto.
  Qed.
  (** restricted to the big list of cells *)
  Definition Dr : rN -> vec K rN := fun c r => if in_dec N.eq_dec (unrev r) big then D (unrev r) (unrev c) else f0.
  Definition grn (c : rN) : Z := dim (unrev c).
  Lemma Dr_graded k B : lists_simplices n k B -> graded grn 1 (rev_basis B : list rN) Dr.
  Proof.
    intros HB [c] [r] Hc Hn. apply (rev_basis_in (C:=N_ord)) in Hc. unfold Dr in Hn. cbn [unrev] in Hn. destruct (in_dec N.eq_dec r big) as [Hr|]; [|congruence].
    apply big_lists in Hr. destruct Hr as (t & Ht & _ & ->). apply HD in Hn; auto. destruct Hn as (s & i & Hs & Hf & ->).
    unfold grn. cbn [unrev]. rewrite !Hdim by auto. rewrite (facet_length Hf). lia.
  Qed.
  Lemma Dr_fin (B : list rN) x : vzero (lincomb B x Dr) \/ exists i, leading rp (lincomb B x Dr) i.
  Proof.
    apply leading_exists with (S := rev_basis big). intros [r] Hr. apply lincomb_nonzero in Hr. destruct Hr as (c & _ & _ & Hn).
    unfold Dr in Hn. cbn [unrev] in Hn. destruct (in_dec N.eq_dec r big) as [H|]; [|congruence]. apply (rev_basis_in (C:=N_ord)). exact H.
  Qed.
  Lemma small_lists : lists_simplices n (m + 1) small.
  Proof. split; apply small_order. Qed.

  Lemma big_small_pairs (i j : N_ord) : In i big -> In j big -> (dim i <= Z.of_nat m)%Z ->
    (is_pair (phi : N_ord -> F) big D i j <->
     is_pair rp (rev_basis small : list rN) (rev_matrix Dc) (Reverse j : rN) (Reverse i : rN)).
  Proof.
    intros Hi Hj Hle.
    destruct (@C34_duality_intrinsic K N_ord F phi big D Dr) with (g := dim) (e := (-1)%Z) as [HP _].
    - apply big_lists.
    - apply (sb_complex HD big_lists).
    - intros c [r] Hc Hn. unfold Dr in Hn. cbn [unrev] in Hn. destruct (in_dec N.eq_dec r big) as [H|]; [|congruence]. apply (rev_basis_in (C:=N_ord)). exact H.
    - intros c r Hc Hr. unfold Dr. cbn [unrev]. destruct (in_dec N.eq_dec c big) as [_|Hno]; [reflexivity|contradiction].
    - apply (sb_graded HD Hdim big_lists).
    - exact big_graded_order.
    - rewrite (HP i j Hi Hj). clear HP.
      assert (Hsi : In i small) by (unfold small; apply filter_In; split; auto; now apply Z.leb_le).
      rewrite (@pair_local K (rev_ord F) rN rp Dr grn 1%Z (rev_basis big) (rev_basis small)).
      + apply is_pair_ext. intros [c] Hc [r]. apply (rev_basis_in (C:=N_ord)) in Hc. apply small_in in Hc. destruct Hc as (s & Hs & Hls & ->).
        unfold Dr, rev_matrix, Dc. cbn [unrev]. destruct (in_dec N.eq_dec r big) as [H|H]; destruct (in_dec N.eq_dec r every) as [H'|H']; auto.
        * exfalso. apply H'. apply big_lists in H. destruct H as (t & Ht & _ & ->). apply every_in. eauto.
        * destruct (fscalar_dec (D r (code n s))) as [|Hn]; auto. exfalso. apply H. apply every_in in H'. destruct H' as (t & Ht & ->).
          apply HD in Hn; auto. destruct Hn as (s' & k & Hs' & Hf & E). apply code_inj in E; [|apply Hs|apply Hs']. subst s'.
          apply big_lists. exists t. split; auto. split; auto. rewrite (facet_length Hf). lia.
      + apply (rev_basis_nodup (C:=N_ord)). apply big_lists.
      + apply (rev_basis_nodup (C:=N_ord)). apply small_lists.
      + apply (Dr_graded big_lists).
      + apply (Dr_graded small_lists).
      + apply Dr_fin.
      + apply Dr_fin.
      + now apply (rev_basis_in (C:=N_ord)).
      + now apply (rev_basis_in (C:=N_ord)).
      + etransitivity; [apply (filter_rev_basis (C:=N))|]. etransitivity; [|symmetry; apply (filter_rev_basis (C:=N))]. f_equal. unfold small. symmetry. apply filter_filter_sub. intros c Hc E. unfold grn in E. cbn [unrev] in E. apply Z.eqb_eq in E. apply Z.leb_le. lia.
  Qed.
End Main.

(** ** C54 *)
Theorem C54_rips_barcode :
  forall (HI : heaps) (K : coeffT) (F : ordT) (uw : N) (z : F) (d : list (list F)) (max_dim : nat),
  rips_matrix z d -> 1 <= max_dim -> codes_fit uw (length d) (max_dim + 2) ->
  forall (L : list N) (fuel : nat), covers_simplices (length d) (max_dim + 2) L -> length L < fuel ->
  exists rc dg, rips_cohomology HI (K:=K) fuel uw z d max_dim = Ok (rc, dg) /\
    let E := map unrev (essential dg) : list N_ord in
    let P := map (fun p => (unrev (snd p), unrev (fst p))) (pairings dg) : list (N_ord * N_ord) in
    forall (phi : N_ord -> F) (D : N_ord -> vec K N_ord) (dim : N_ord -> Z) (k : nat) (l : list N_ord),
      rips_filtration z d phi -> rips_boundary_matrix (length d) D -> simplex_dim (length d) dim ->
      max_dim + 2 <= k -> lists_simplices (length d) k l ->
      exists Z : N_ord -> vec K N_ord,
        (forall c, In c E -> cycle_at phi dim l D (dim c) (phi c) (Z c)) /\
        (forall i j, In (i, j) P ->
           cycle_at phi dim l D (dim i) (phi i) (Z i) /\ boundary_at phi dim (-1) l D (dim i) (phi j) (Z i)) /\
        forall q s t, (q <= Z.of_nat max_dim)%Z ->
          persistent_basis phi dim (-1) l D q s t (alive phi dim E P q s t) Z.
Proof.
  intros HI K F uw z d m Hd Hm Hfit L fuel HL Hfuel.
  destruct (@C44_cohomology_intrinsic HI K F uw z d m Hd Hm Hfit L fuel HL Hfuel) as (rc & dg & Erun & N1 & N2 & Hint).
  destruct (@C44_diagram_shape HI K F uw z d m Hd Hm Hfit L fuel HL Hfuel) as (rc' & dg' & E' & S1 & S2 & S3 & S4).
  rewrite Erun in E'. injection E' as <- <-.
  exists rc, dg. split; auto. intros E P phi D dim k l Hphi HD Hdim Hk Hl.
  pose proof (@big_lists F z d m Hd Hm phi Hphi) as Hbig. pose proof (@small_order F z d m Hd Hm phi dim Hphi Hdim) as Hso.
  pose proof (@small_in F z d m Hd Hm phi dim Hphi Hdim) as Hsi.
  destruct (Hint phi (Dc z d D) (small z d m dim) Hphi (@Dc_coboundary K F z d D HD) Hso) as [HP0 _]. clear Hint.
  pose proof (@big_small_pairs K F z d m Hd Hm phi D dim Hphi HD Hdim) as Hbs.
  assert (HPin : forall i j, In (i, j) P <-> In (Reverse j, Reverse i) (pairings dg)).
  { intros i j. unfold P. rewrite in_map_iff. split.
    - intros ([[a] [b]] & [= -> ->] & Hin). exact Hin.
    - intros Hin. exists (Reverse j, Reverse i). auto. }
  assert (HP : forall i j, In (i, j) P <-> (dim i <= Z.of_nat m)%Z /\ In j (big z d m) /\ is_pair phi (big z d m) D i j).
  { intros i j. rewrite HPin. split.
    - intros Hin. pose proof Hin as Hin'. apply S1 in Hin'. destruct Hin' as (s & t & _ & _ & Hs & Ht & Hls & Hlt & E1 & E2 & _).
      injection E1 as ->. injection E2 as ->.
      assert (Hile : (dim (code (length d) s) <= Z.of_nat m)%Z) by (rewrite Hdim by auto; lia).
      assert (Hib : In (code (length d) s) (big z d m)) by (apply Hbig; exists s; split; auto; split; auto; lia).
      assert (Hjb : In (code (length d) t) (big z d m)) by (apply Hbig; exists t; split; auto; split; auto; lia).
      split; auto. split; auto. apply Hbs; auto. apply HP0 in Hin. apply Hin.
    - intros (Hile & Hj & Hp). assert (Hi : In i (big z d m)).
      { revert Hp. apply (@pair_rows_in K F N_ord). apply (sb_complex HD Hbig). }
      apply HP0. split; [|apply Hbs; auto]. apply (rev_basis_in (C:=N_ord)). apply filter_In. split; auto. now apply Z.leb_le. }
  assert (NP : NoDup P).
  { unfold P. apply nodup_map_intro; auto. intros [[a] [b]] [[a'] [b']] _ _ [= -> ->]. reflexivity. }
  assert (NE : NoDup E).
  { unfold E. apply nodup_map_intro; auto. intros [a] [b] _ _ H. cbn [unrev] in H. now subst b. }
  assert (HE : forall c, In c E <-> (dim c <= Z.of_nat m)%Z /\ is_essential phi (big z d m) D c).
  { intros c. assert (HEc : In c E <-> length d <> 0 /\ c = code (length d) [0]).
    { unfold E. rewrite S4. destruct (Nat.eqb_spec (length d) 0) as [E0|Hn]; cbn [map In unrev]; [tauto|]. split; [intros [<-|[]]; auto|intros [_ ->]; auto]. }
    rewrite HEc. rewrite (@ess_iff K F N_ord phi (big z d m) D (proj1 Hbig)) by apply (sb_complex HD Hbig). split.
    - intros [Hn ->]. assert (Hs0 : simplex (length d) [0]) by (split; [discriminate|split; repeat constructor; lia]).
      destruct (S2 [0] Hs0 ltac:(simpl; lia)) as (_ & _ & Hno). specialize (Hno eq_refl).
      assert (Hd0 : dim (code (length d) [0]) = 0%Z) by (rewrite Hdim by auto; reflexivity).
      assert (Hb0 : In (code (length d) [0]) (big z d m)) by (apply Hbig; exists [0]; split; auto; split; auto; simpl; lia).
      split; [lia|]. split; auto. split; intros x Hx Hp.
      + assert (Hg : dim x = (dim (code (length d) [O]) + -1)%Z).
        { eapply (@pair_grade K F N_ord phi (big z d m) D); [|apply (sb_graded HD Hdim Hbig)|exact Hp]. intros y. apply per_fin. apply (sb_complex HD Hbig). }
        assert (Hin : In (x, code (length d) [0]) P) by (apply HP; split; [lia|auto]). apply HPin, Hno in Hin. cbn [fst snd] in Hin. tauto.
      + assert (Hin : In (code (length d) [0] : N_ord, x) P) by (apply HP; split; [lia|auto]). apply HPin, Hno in Hin. cbn [fst snd] in Hin. tauto.
    - intros (Hle & Hc & Hnd & Hnb). apply Hbig in Hc. destruct Hc as (s & Hs & Hls & ->). pose proof Hle as Hle'. rewrite Hdim in Hle' by auto.
      destruct (S2 s Hs ltac:(lia)) as (Hcase & _ & _). destruct Hcase as [->|[([i] & Hi)|([j] & Hj)]].
      + split; auto. intros E0. destruct Hs as (_ & _ & Hb). inversion Hb; lia.
      + exfalso. apply HPin in Hi. apply HP in Hi. eapply Hnb; apply Hi.
      + exfalso. apply HPin in Hj. apply HP in Hj. destruct Hj as (Hjl & _ & Hj). eapply Hnd; [|exact Hj].
        revert Hj. apply (@pair_rows_in K F N_ord). apply (sb_complex HD Hbig). }
  destruct (@barcode_upto K F N_ord phi dim (-1)%Z (big z d m) D (Z.of_nat m) (proj1 Hbig) (sb_complex HD Hbig) (sb_graded HD Hdim Hbig)
    (@big_graded_order F z d m Hd Hm phi dim Hphi Hdim) E P NE NP HP HE) as (Z & Z1 & Z2 & Z3).
  assert (Hsame : forall q, (q <= Z.of_nat m)%Z -> forall c, dim c = q \/ dim c = (q - -1)%Z -> (In c (big z d m) <-> In c l)).
  { intros q Hq c Hc. destruct Hl as [_ Hl]. destruct Hbig as [_ Hb]. rewrite Hl. etransitivity; [exact (Hb c)|]. split; intros (s & Hs & Hls & ->); exists s; (split; [auto|]); (split; [|auto]).
    - lia.
    - rewrite Hdim in Hc by auto. lia. }
  exists Z. split; [|split].
  - intros c Hc. eapply (@cycle_transfer K F N_ord phi dim (-1)%Z (big z d m) l D (dim c) (proj1 Hbig) (proj1 Hl)); [|exact (Z1 c Hc)].
    apply Hsame. apply HE in Hc. tauto.
  - intros i j Hij. pose proof Hij as Hij'. apply HP in Hij'. destruct (Z2 i j Hij) as [Z4 Z5]. split.
    + eapply (@cycle_transfer K F N_ord phi dim (-1)%Z (big z d m) l D (dim i) (proj1 Hbig) (proj1 Hl)); [|exact Z4]. apply Hsame. tauto.
    + eapply (@boundary_transfer K F N_ord phi dim (-1)%Z (big z d m) l D (dim i) (proj1 Hbig) (proj1 Hl)); [|exact Z5]. apply Hsame. tauto.
  - intros q s t Hq. eapply (@basis_transfer K F N_ord N_ord phi dim (-1)%Z (big z d m) l D q); [exact (proj1 Hbig)|exact (proj1 Hl)|apply Hsame; auto|apply Z3; auto].
Qed.
Print Assumptions C54_rips_barcode.

(** The number of bars alive is the persistent Betti number of the whole Vietoris-Rips filtration: [k] may be the
    number of points. *)
Theorem C54_rips_bars_count :
  forall (HI : heaps) (K : coeffT) (F : ordT) (uw : N) (z : F) (d : list (list F)) (max_dim : nat),
  rips_matrix z d -> 1 <= max_dim -> codes_fit uw (length d) (max_dim + 2) ->
  forall (L : list N) (fuel : nat), covers_simplices (length d) (max_dim + 2) L -> length L < fuel ->
  exists rc dg, rips_cohomology HI (K:=K) fuel uw z d max_dim = Ok (rc, dg) /\
    let E := map unrev (essential dg) : list N_ord in
    let P := map (fun p => (unrev (snd p), unrev (fst p))) (pairings dg) : list (N_ord * N_ord) in
    forall (phi : N_ord -> F) (D : N_ord -> vec K N_ord) (dim : N_ord -> Z) (k : nat) (l : list N_ord),
      rips_filtration z d phi -> rips_boundary_matrix (length d) D -> simplex_dim (length d) dim ->
      max_dim + 2 <= k -> lists_simplices (length d) k l ->
      forall q s t b, (q <= Z.of_nat max_dim)%Z ->
        (persistent_betti phi dim (-1) l D q s t b <-> b = length (alive phi dim E P q s t)).
Proof.
  intros HI K F uw z d m Hd Hm Hfit L fuel HL Hfuel.
  destruct (@C54_rips_barcode HI K F uw z d m Hd Hm Hfit L fuel HL Hfuel) as (rc & dg & Erun & H). exists rc, dg. split; auto.
  intros E P phi D dim k l H1 H2 H3 H4 H5 q s t b Hq.
  destruct (H phi D dim k l H1 H2 H3 H4 H5) as (Z & _ & _ & HZ). specialize (HZ q s t Hq).
  assert (Hb : persistent_betti phi dim (-1) l D q s t (length (alive phi dim E P q s t))) by (exists N_ord, (alive phi dim E P q s t), Z; auto).
  split; [intros Hx; eapply betti_unique; eauto|intros ->; auto].
Qed.
Print Assumptions C54_rips_bars_count.

(** ** The objects of the specification exist *)
Definition spec_dim (n : nat) (c : N) : Z := match to_vec n c with Ok s => (Z.of_nat (length s) - 1)%Z | _ => (-2)%Z end.
Definition spec_boundary {K : coeffT} {F : ordT} (z : F) (d : list (list F)) : N -> vec K N := fun c r =>
  if in_dec N.eq_dec r (every z d) then
    match to_vec (length d) c, to_vec (length d) r with Ok t, Ok s => inc t s | _, _ => f0 end
  else f0.
Lemma spec_exists {K : coeffT} {F : ordT} (z : F) (d : list (list F)) : rips_matrix z d ->
  rips_filtration z d (some_phi z d) /\ rips_boundary_matrix (length d) (spec_boundary (K:=K) z d) /\ simplex_dim (length d) (spec_dim (length d)) /\
  forall k, length d <= k -> lists_simplices (length d) k (every z d).
Proof.
  intros Hd. split; [now apply some_phi_ok|]. split; [|split].
  - split.
    + intros s t i Hs Ht Hf. unfold spec_boundary. destruct (in_dec N.eq_dec _ _) as [_|Hno]; [|exfalso; apply Hno; apply every_in; eauto].
      rewrite !to_vec_code by (apply Hs || apply Ht). apply inc_facet; auto. destruct Ht as (_ & Hst & _). now apply sorted_nodup.
    + intros t r Ht Hn. unfold spec_boundary in Hn. destruct (in_dec N.eq_dec _ _) as [Hr|]; [|congruence]. apply every_in in Hr. destruct Hr as (s & Hs & ->).
      rewrite !to_vec_code in Hn by (apply Hs || apply Ht). destruct (facet_dec t s) as [(i & Hf)|Hno]; [eauto|]. exfalso. apply Hn. now apply inc_none.
  - intros s Hs. unfold spec_dim. rewrite to_vec_code by apply Hs. reflexivity.
  - intros k Hk. split; [apply all_cells_nodup; lia|]. intros c. rewrite every_in. split.
    + intros (t & Ht & ->). exists t. split; auto. split; auto. pose proof (simplex_length Ht). lia.
    + intros (t & Ht & _ & ->). eauto.
Qed.

(** Four points on a line at 0, 1, 3, 7, as in C44_ex: of the four components, three are left at time 1 and two at
    time 2; the cycles of dimension 1 that appear all bound at once. *)
Example C54_ex : exists rc dg, rips_cohomology list_heaps (K:=Z3_coeff) 700 (2 ^ 64) (0 : nat_ord) line4 2 = Ok (rc, dg) /\
  forall (D : N_ord -> vec Z3_coeff N_ord) l, rips_boundary_matrix 4 D -> lists_simplices 4 4 l ->
  let betti q (s t : nat) k := persistent_betti (some_phi (0 : nat_ord) line4 : N_ord -> nat_ord) (spec_dim 4) (-1) l D q s t k in
  (forall k, betti 0%Z 0 0 k <-> k = 4) /\ (forall k, betti 0%Z 0 1 k <-> k = 3) /\ (forall k, betti 0%Z 0 2 k <-> k = 2) /\
  (forall k, betti 0%Z 7 7 k <-> k = 1) /\ (forall k, betti 1%Z 3 3 k <-> k = 0).
Proof.
  destruct C44_ex_hyps as (H1 & H2 & H3).
  destruct (@C54_rips_bars_count list_heaps Z3_coeff nat_ord (2 ^ 64) 0 line4 2 H1 ltac:(lia) H2 (map N.of_nat (seq 0 625)) 700 H3) as (rc & dg & E & H).
  { rewrite map_length, seq_length. apply Nat.ltb_lt. vm_compute. reflexivity. }
  exists rc, dg. split; auto. intros D l HD Hl betti.
  destruct C44_ex as (rc' & E'). rewrite E in E'. injection E' as <- ->.
  destruct (@spec_exists Z3_coeff nat_ord 0 line4 H1) as (S1 & _ & S2 & _).
  assert (Hb : forall q (s t : nat), (q <= 2)%Z -> forall k, betti q s t k <-> _) by (intros q s t Hq k; apply (H _ D _ 4 l S1 HD S2 ltac:(lia) Hl); exact Hq).
  repeat split; intros Hk; try (subst k); first [apply Hb in Hk; [|lia]; rewrite Hk; vm_compute; reflexivity|apply Hb; [lia|vm_compute; reflexivity]].
Qed.
