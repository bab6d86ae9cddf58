(** The involution step of phlite_grpph/src/lib.rs 145-197. *)
From Verif Require Import Base Fields FieldsFacts Spec LinAlg Columns ColumnsFacts ColumnOps Matrices SpecMat MatricesFacts Reduction LoopProofs StandardProofs ReadOffProofs Graded StandardResults Duality Rips RipsBasis PropColumns PropMatrices RipsCohomology GrpphCells Grpph SpecGrpph GrpphFacts GrpphColumns GrpphComplex GrpphReduce GrpphRun Involution.
From Coq Require Import Ring_theory Sorted Permutation Lia.
Set Implicit Arguments.

Lemma flat_mapM_rel {A B} (f : A -> res (list B)) (Q : A -> list B -> Prop) (l : list A) :
  (forall a, In a l -> exists r, f a = Ok r /\ Q a r) -> exists rs, flat_mapM f l = Ok (concat rs) /\ Forall2 Q l rs.
Proof.
  unfold flat_mapM. intros H. assert (exists rs, mapM f l = Ok rs /\ Forall2 Q l rs) as (rs & E & HQ).
  { induction l as [|a l IH]; [exists []; split; [reflexivity|constructor]|].
    destruct (H a (or_introl eq_refl)) as (r & Er & Hr). destruct IH as (rs & Ers & Hrs); [intros a' Ha'; apply H; simpl; auto|].
    exists (r :: rs). cbn [mapM]. rewrite Er. cbn [bind]. rewrite Ers. cbn [bind]. split; auto. }
  exists rs. rewrite E. cbn [bind]. split; auto.
Qed.
Lemma mapM_rel {A B} (f : A -> res B) (l : list A) :
  (forall a, In a l -> exists r, f a = Ok r) -> exists rs, mapM f l = Ok rs /\ Forall2 (fun a r => f a = Ok r) l rs.
Proof.
  induction l as [|a l IH]; intros H; [exists []; split; [reflexivity|constructor]|].
  destruct (H a (or_introl eq_refl)) as (r & Er). destruct IH as (rs & Ers & Hrs); [intros a' Ha'; apply H; simpl; auto|].
  exists (r :: rs). cbn [mapM]. rewrite Er. cbn [bind]. rewrite Ers. cbn [bind]. split; auto.
Qed.

Section Involution.
  Variable HI : heaps.
  Context {K : coeffT}.
  Add Field KFGI : (F_field K).
  Context {F : ordT} (time : nat -> nat -> option F) (n : nat) (z inf : F) (fil : dfil F) (E : list (nat * nat)).
  Hypothesis HG : filtered_digraph time n z inf.
  Hypothesis Hfil : forall s t, s < n -> t < n -> fil s t = Ok (time s t).
  Hypothesis HE : forall s t, In (s, t) E -> s < n /\ t < n.
  Variables (phi : cell -> F) (l : list cell).
  Hypothesis HL : cell_listing time n z E phi l.
  Notation birth := (cell_birth time n z E).
  Notation bd := (cell_boundary (K:=K) : cell_ord -> vec K cell_ord).
  Notation phiC := (phi : cell_ord -> F).
  Notation lC := (l : list cell_ord).
  Notation g := (fun c : cell_ord => cdim c).
  Notation pair_l := (is_pair phiC lC bd).

  Let Hl : NoDup lC := proj1 HL.
  Let Hin : forall c, In c l <-> exists f, birth c f := proj1 (proj2 HL).
  Let Hphi : forall c f, birth c f -> phi c = f := proj1 (proj2 (proj2 HL)).
  Let Hord : graded_order phiC g lC := proj2 (proj2 (proj2 HL)).

  Lemma inv_rows (c r : cell_ord) : In c l -> bd c r <> f0 -> In r l.
  Proof. exact (@bd_rows K F time n z inf HG E HE l Hin c r). Qed.
  Lemma inv_fin (x : vec K cell_ord) : vzero (lincomb lC x bd) \/ exists i, leading phiC (lincomb lC x bd) i.
  Proof. eapply (@primal_fin K F cell_ord). exact inv_rows. Qed.
  Lemma inv_graded : graded g (-1) lC bd.
  Proof. exact (@bd_graded K l). Qed.
  Lemma inv_complex : complex lC bd.
  Proof.
    split; [exact inv_rows|]. intros c Hc r. unfold lincomb. apply Hin in Hc. destruct Hc as (f & Hc).
    apply (@bd_bd K F time n z inf HG E l c f r); auto. intros s t h Hh. apply Hin. exists h. cbn [cell_birth]. now apply eb_iff.
  Qed.
  Lemma inv_pair_dims i j : In j l -> pair_l i j -> In i l /\ cell_dimension j = cell_dimension i + 1.
  Proof.
    intros Hj Hp. split; [eapply (@pair_rows_in K F cell_ord); [|exact Hp]; exact inv_rows|].
    assert (Hg := pair_grade inv_fin inv_graded Hp). cbv beta in Hg. revert Hg. generalize (cell_dimension i) (cell_dimension j). intros; lia.
  Qed.
  Lemma inv_birth_unique i i' j : In j l -> pair_l i j -> pair_l i' j -> i = i'.
  Proof.
    destruct (decomposition_exists phiC bd Hl inv_rows) as (V & HV & HR). exact (pair_birth_unique Hl HV HR inv_fin (j:=j)).
  Qed.

  (** *** the columns *)
  Variable N : list cell_ord.
  Hypothesis HN : NoDup N.
  Hypothesis HNin : forall j, In j N <-> In j l /\ cell_dimension j = 2 /\ exists i, pair_l i j.
  Hypothesis HNord : forall x y, before N x y -> row_lt phiC x y.

  Notation l2 := (filter (fun c : cell_ord => (g c =? 2)%Z) lC).
  Lemma l2_in c : In c l2 <-> In c l /\ cell_dimension c = 2.
  Proof. rewrite filter_In, Z.eqb_eq. split; intros [H1 H2]; split; auto; lia. Qed.
  Lemma l2_before (x y : cell_ord) : before l2 x y -> row_lt phiC x y.
  Proof.
    intros H. pose proof (before_in H) as [Hx Hy]. apply l2_in in Hx, Hy. apply before_filter in H. apply (Hord H).
    destruct Hx as [_ ->]. destruct Hy as [_ ->]. reflexivity.
  Qed.
  Lemma N_l2 c : In c N -> In c l2.
  Proof. intros H. apply HNin in H. apply l2_in. tauto. Qed.
  Lemma N_before x y : before N x y -> before l2 x y.
  Proof.
    intros H. pose proof (before_in H) as [Hx Hy]. apply HNord in H.
    destruct (@before_total cell_ord l2 x y (N_l2 _ Hx) (N_l2 _ Hy)) as [->|[|H']]; auto; exfalso.
    - eapply row_lt_irrefl; eauto.
    - apply l2_before in H'. eapply row_lt_asym; eauto.
  Qed.
  Lemma l2_positive c : In c l2 -> ~ In c N -> is_positive l2 bd c.
  Proof.
    intros Hc Hn. apply l2_in in Hc. destruct Hc as [Hc Hd]. destruct (decomposition_exists phiC bd Hl inv_rows) as (V & HV & HR).
    destruct (positive_or_death Hl HV HR inv_fin c Hc) as [(x & Hx & Hz)|(i & Hi)].
    - assert (Hg2 : g c = 2%Z) by (cbv beta; rewrite Hd; reflexivity).
      exists (restrict g 2 x). split; [exact (@ends_at_filter K F cell_ord phiC bd g lC 2%Z x c Hl Hg2 Hx)|].
      intros r. rewrite (@lincomb_filter K cell_ord bd g lC 2); [|intros b _ Hb; unfold restrict in Hb; destruct (Z.eqb_spec (cdim b) 2); [auto|now destruct Hb]].
      rewrite (@lincomb_restrict K cell_ord lC bd g (-1)%Z inv_graded). destruct (_ =? _)%Z; auto.
    - exfalso. apply Hn. apply HNin. split; auto. split; auto. eauto.
  Qed.
  Lemma N_pairs i j : In j N -> (is_pair phiC N bd i j <-> pair_l i j).
  Proof.
    intros Hj. pose proof (N_l2 _ Hj) as Hj2. apply l2_in in Hj2. destruct Hj2 as [Hjl Hjd].
    rewrite (@pair_filter K F cell_ord phiC bd g (-1)%Z lC i j Hl inv_graded inv_fin Hjl).
    assert (Hg2 : g j = 2%Z) by (cbv beta; rewrite Hjd; reflexivity). cbv beta in Hg2 |- *. rewrite Hg2.
    apply (@pair_drop K F cell_ord cell_ord phiC l2 N bd); auto.
    - now apply NoDup_filter.
    - exact N_l2.
    - exact N_before.
    - exact l2_positive.
  Qed.

  (** *** the boundary matrix on these columns *)
  Lemma boundary_entries X f k r : generator time X f -> In (k, r) (match @grpph_boundary_column K (TwoCell X) with Ok c => c | _ => [] end) ->
    exists s t, r = Edge s t /\ In (Edge s t) l.
  Proof.
    intros HX Hr.
    assert (Hp : forall a b c h, path_time time a b c = Some h -> In (Edge a b) l /\ In (Edge b c) l).
    { intros a b c h Hp. destruct (path_births HG E _ _ _ Hp) as (f1 & f2 & E1 & _ & E2 & _). split; apply Hin; eexists; cbn [cell_birth]; apply eb_iff; eauto. }
    assert (Ht : forall a b h, time a b = Some h -> In (Edge a b) l).
    { intros a b h Ht. apply Hin. unfold cell_birth, edge_birth. destruct (in_dec (ord_eq_dec (T:=edge_ord)) (a, b) E) as [Hi|Hi]; [exists z|exists h]; auto. }
    destruct HX as [a b f Ef|a b c f h Hac Ef Eh Hle|a b c f Hac Hpb Ef|a b b' c f Hac Hpb Hb Hne Ef]; cbn [grpph_boundary_column] in Hr.
    - apply Hp in Ef. destruct Hr as [[= <- <-]|[[= <- <-]|[]]]; do 2 eexists; (split; [reflexivity|tauto]).
    - apply Hp in Ef. apply Ht in Eh. destruct Hr as [[= <- <-]|[[= <- <-]|[[= <- <-]|[]]]]; do 2 eexists; (split; [reflexivity|tauto]).
    - destruct Hpb as [(f1 & E1 & _) _]. apply Hp in E1. apply Ht in Ef. destruct Hr as [[= <- <-]|[[= <- <-]|[[= <- <-]|[]]]]; do 2 eexists; (split; [reflexivity|tauto]).
    - destruct Hpb as [(f1 & E1 & _) _]. apply Hp in E1. apply Hp in Ef. destruct Hr as [[= <- <-]|[[= <- <-]|[[= <- <-]|[[= <- <-]|[]]]]]; do 2 eexists; (split; [reflexivity|tauto]).
  Qed.
  Lemma N_cell j : In j N -> exists X f, j = TwoCell X /\ generator time X f.
  Proof.
    intros Hj. apply HNin in Hj. destruct Hj as (Hj & Hd & _). apply Hin in Hj. destruct Hj as (f & Hj). destruct j as [|s t|X]; try discriminate. exists X, f. auto.
  Qed.

  Variable ib : list (F * cell).
  Hypothesis Hib : map snd ib = N.
  Notation BM := (by_ref (fst (grpph_boundary_build (K:=K) z fil E ib))).
  Notation bb := (snd (grpph_boundary_build (K:=K) z fil E ib)).
  Lemma BM_col c : m_col BM c = grpph_boundary_column c.
  Proof. reflexivity. Qed.
  Lemma inv_fil c : In c l -> grpph_filtration_value z fil E c = Ok (phi c).
  Proof. intros Hc. apply Hin in Hc. destruct Hc as (f & Hc). rewrite (Hphi c f Hc). exact (gfil_ok HG fil Hfil E HE c _ Hc). Qed.
  Lemma BM_square : square_matrix phiC BM bb N.
  Proof.
    split; auto. split.
    - split; [cbn; rewrite <- Hib; symmetry; apply map_length|]. intros i c Ei. rewrite <- Hib, nth_error_map in Ei.
      destruct (nth_error ib i) as [p|] eqn:Ep; [|discriminate]. apply index_Ok in Ep. change (b_elem bb i) with (do p <- index ib i; Ok (snd p)).
      rewrite Ep. cbn [bind]. injection Ei as <-. reflexivity.
    - intros c Hc. destruct (N_cell c Hc) as (X & f & -> & HX).
      apply (@coherent_default K cell_ord cell_ord F phiC (fst (grpph_boundary_build z fil E ib)) (TwoCell X : cell_ord) (match @grpph_boundary_column K (TwoCell X) with Ok c => c | _ => [] end)); [reflexivity|].
      intros k r Hr. destruct (boundary_entries _ _ HX Hr) as (s & t & -> & He). exact (inv_fil _ He).
  Qed.
  Lemma BM_den c : In c N -> forall r, mden (m_col BM) c r = bd c r.
  Proof.
    intros Hc r. apply HNin in Hc. destruct Hc as (Hc & _). apply Hin in Hc. destruct Hc as (f & Hc). exact (boundary_column_coef (K:=K) HG E c f r Hc).
  Qed.
  Lemma BM_rows : length (row_set (m_col BM) N) <= length l.
  Proof.
    apply NoDup_incl_length; [apply NoDup_nodup|]. intros r Hr. unfold row_set in Hr. apply nodup_In in Hr. apply in_flat_map in Hr. destruct Hr as (c & Hc & Hr).
    destruct (N_cell c Hc) as (X & f & -> & HX). rewrite BM_col in Hr. apply in_map_iff in Hr. destruct Hr as ([k r'] & <- & Hr).
    destruct (@boundary_entries X f k r' HX) as (s & t & -> & He); [exact Hr|exact He].
  Qed.
  Variable fuel : nat.
  Hypothesis Hfuel : length l < fuel.

  (** the reduced column of a paired 2-cell *)
  Lemma inv_reduce : exists v dg, standard_algo_with_diagram HI fuel BM bb false = Ok (v, dg) /\
    NoDup (pairings dg) /\ (forall i j, In (i, j) (pairings dg) <-> In j N /\ pair_l i j) /\
    forall i j, In (i, j) (pairings dg) -> exists x h es h',
      (forall c, x c <> f0 -> In c N /\ (c = j \/ row_lt phiC c j)) /\ ends_at N x j /\
      leading phiC (lincomb lC x bd) i /\
      build_bhcol HI (product_f BM (mapvec_column v)) j = Ok h /\ drain_sorted h = Ok (es, h') /\
      is_canonical phiC (lincomb lC x bd) es.
  Proof.
    assert (Hf : length (row_set (m_col BM) N) < fuel) by (pose proof BM_rows; lia).
    destruct (std_diagram HI BM_square Hf false) as (v & dg & Ed & Ht & Hr & _ & Nd & Hp & _). exists v, dg. split; auto. split; auto.
    assert (HpN : forall i j, In j N -> (is_pair phiC N (mden (m_col BM)) i j <-> pair_l i j)).
    { intros i j Hj. rewrite <- (N_pairs i j Hj). apply is_pair_ext. exact BM_den. }
    assert (Hpairs : forall i j, In (i, j) (pairings dg) <-> In j N /\ pair_l i j).
    { intros i j. rewrite Hp. split; intros [Hj H]; (split; [auto|apply HpN; auto]). }
    split; auto. intros i j Hij. apply Hpairs in Hij. destruct Hij as [Hj Hij].
    assert (Ev : standard_algo HI fuel (by_ref BM) bb = Ok v).
    { unfold standard_algo_with_diagram in Ed. apply bind_Ok in Ed. destruct Ed as (w & Ew & Ed). apply bind_Ok in Ed. destruct Ed as (d & _ & [= <- _]). exact Ew. }
    destruct (@std_support HI K cell_ord F phiC (by_ref BM) bb N (square_by_ref BM_square) fuel Hf v Ev j Hj) as (lv & Hg & Hsup).
    set (x := fun c : cell_ord => if in_dec (ord_eq_dec (T:=cell_ord)) c N then stored v j c else f0).
    pose proof (Ht j Hj) as Hends. pose proof (proj1 (ends_at_before (stored v j) j HN) Hends) as (_ & Hjj & Hz).
    assert (Hxs : forall c, x c <> f0 -> In c N /\ (c = j \/ row_lt phiC c j)).
    { intros c Hc. unfold x in Hc. destruct (in_dec _ c N) as [HcN|]; [|congruence]. split; auto.
      destruct (@before_total cell_ord N c j HcN Hj) as [|[H|H]]; auto. exfalso. apply Hc. auto. }
    assert (Hl0 : forall r, lincomb lC x bd r = lincomb N (stored v j) (mden (m_col BM)) r).
    { intros r. rewrite <- (@lincomb_sub K F cell_ord cell_ord phiC lC N bd Hl HN (fun c Hc => proj1 (proj1 (l2_in c) (N_l2 _ Hc))) x r).
      - apply lincomb_ext; [|intros c Hc; symmetry; now apply BM_den]. intros c Hc. unfold x. destruct (in_dec _ c N); tauto.
      - intros b _ Hb. unfold x. destruct (in_dec _ b N); tauto. }
    assert (Hlead : leading phiC (lincomb lC x bd) i).
    { eapply leading_ext; [intros r; symmetry; apply Hl0|].
      apply (intrinsic_pair HN Ht Hr) with (j := j); auto.
      - intros k _. apply lincomb_dich.
      - apply HpN; auto. }
    destruct (@C11_product_filtration K cell_ord cell_ord cell_ord F BM (mapvec_column v) j lv N phiC) as (es0 & Ees & Hw & Hc0).
    - unfold mapvec_column. now rewrite Hg.
    - intros k x' Hx'. apply Hsup in Hx'. split; auto. apply BM_square; auto.
    - exact HN.
    - assert (Hb : build_bhcol HI (product_f BM (mapvec_column v)) j = Ok (add_entries (empty_bhcol HI F cell_ord K) es0)) by (unfold build_bhcol; rewrite Ees; reflexivity).
      destruct (@C07_drain_sorted HI F cell_ord K phiC (add_entries (empty_bhcol HI F cell_ord K) es0)) as (es & h' & E1 & _ & _ & Hcan).
      { apply wfc_add_entries; [apply wfc_empty|exact Hw]. }
      exists x, (add_entries (empty_bhcol HI F cell_ord K) es0), es, h'. split; auto. split; [|split; [auto|split; [auto|split; [auto|]]]].
      + apply ends_at_before; auto. split; auto. split; [unfold x; destruct (in_dec _ j N); tauto|]. intros b Hbf. unfold x. destruct (in_dec _ b N); auto.
      + destruct Hcan as (C1 & C2 & C3). split; auto. split; auto. intros r k. rewrite <- C2, Hl0.
        change (coef (map e_term (elems (add_entries (empty_bhcol HI F cell_ord K) es0))) r) with (den (add_entries (empty_bhcol HI F cell_ord K) es0) r).
        rewrite den_add_entries, den_empty, Hc0. unfold lincomb.
        assert (Eq : fadd (vsum N (fun j0 : cell_ord => fmul (mden (m_col BM) j0 r) (mden (mapvec_column v) j j0))) f0 = vsum N (fun b => fmul (stored v j b) (mden (m_col BM) b r))).
        { rewrite fadd_0_r. apply vsum_ext. intros b _. apply (Rmul_comm (F_ring K)). }
        rewrite Eq. reflexivity.
  Qed.
End Involution.

Section Reps.
  Variable HI : heaps.
  Add Field KFGR : (F_field Z2_coeff).
  Context {F : ordT} (time : nat -> nat -> option F) (n : nat) (z inf : F) (fil : dfil F) (E : list (nat * nat)).
  Hypothesis HG : filtered_digraph time n z inf.
  Hypothesis Hfil : forall s t, s < n -> t < n -> fil s t = Ok (time s t).
  Hypothesis HE : forall s t, In (s, t) E -> s < n /\ t < n.
  Variables (phi : cell -> F) (l : list cell) (fuel : nat).
  Hypothesis HL : cell_listing time n z E phi l.
  Hypothesis Hfuel : length l < fuel.
  Notation bd := (cell_boundary (K:=Z2_coeff) : cell_ord -> vec Z2_coeff cell_ord).
  Notation phiC := (phi : cell_ord -> F).
  Notation lC := (l : list cell_ord).
  Notation pair_l := (is_pair phiC lC bd).

  Variable ps : list (rC * rC).
  Hypothesis Hps : NoDup ps.
  Hypothesis Hpin : forall i j : cell, In ((Reverse j : rC), (Reverse i : rC)) ps <-> In j l /\ pair_l i j.
  Variable fv : cell_ord -> res F.
  Hypothesis Hfv : forall c, In c l -> fv c = Ok (phi c).

  Definition ibase : list (F * cell) := flat_map (fun p : rC * rC => if cell_dimension (unrev (snd p)) =? 1 then [(phi (unrev (fst p)), unrev (fst p) : cell)] else []) ps.
  Lemma ps_cells (p : rC * rC) : In p ps -> In (unrev (fst p) : cell) l /\ In (unrev (snd p) : cell) l /\ pair_l (unrev (snd p)) (unrev (fst p)).
  Proof.
    destruct p as [[j] [i]]. intros H. apply Hpin in H. destruct H as [Hj H]. cbn [fst snd unrev]. split; auto. split; auto.
    apply (inv_pair_dims HG HE HL Hj H).
  Qed.
  Lemma ibase_ok : involution_basis fv ps = Ok (@sort_unstable (pair_ord F cell_ord) ibase).
  Proof.
    unfold involution_basis. rewrite (@flat_mapM_pure _ _ _ (fun p : rC * rC => if cell_dimension (unrev (snd p)) =? 1 then [(phi (unrev (fst p)), unrev (fst p) : cell)] else [])).
    - reflexivity.
    - intros p Hp. destruct (ps_cells _ Hp) as (H1 & H2 & _). rewrite (Hfv _ H1), (Hfv _ H2). reflexivity.
  Qed.
  Lemma ibase_nodup : NoDup ibase.
  Proof.
    unfold ibase. assert (H : forall q, incl q ps -> NoDup q -> NoDup (flat_map (fun p : rC * rC => if cell_dimension (unrev (snd p)) =? 1 then [(phi (unrev (fst p)), unrev (fst p) : cell)] else []) q)).
    { induction q as [|p q IH]; intros Hq Hn; [constructor|]. cbn [flat_map]. inversion Hn as [|? ? Hnp Hnq]; subst.
      assert (IH' := IH (fun x Hx => Hq x (or_intror Hx)) Hnq). destruct (cell_dimension (unrev (snd p)) =? 1); [|exact IH']. cbn [app]. constructor; auto.
      intros Hc. apply in_flat_map in Hc. destruct Hc as (p' & Hp' & Hc). destruct (cell_dimension (unrev (snd p')) =? 1); [|destruct Hc]. destruct Hc as [Hc|[]]. injection Hc as _ Hc.
      apply Hnp. assert (p = p') as ->; auto. pose proof (Hq p (or_introl eq_refl)) as H1. pose proof (Hq p' (or_intror Hp')) as H2.
      destruct p as [[j] [i]], p' as [[j'] [i']]. cbn [fst snd unrev] in *. subst j'. apply Hpin in H1, H2. destruct H1 as [H1 P1], H2 as [_ P2].
      now rewrite (inv_birth_unique HG HE HL H1 P1 P2). }
    apply H; auto. apply incl_refl.
  Qed.
  Notation sib := (@sort_unstable (pair_ord F cell_ord) ibase).
  Lemma sib_in f c : In (f, c) sib <-> f = phi c /\ In c l /\ cell_dimension c = 2 /\ exists i, pair_l i c.
  Proof.
    assert (H : In (f, c) sib <-> In (f, c) ibase) by (split; apply Permutation_in; [symmetry|]; apply (@sort_perm (pair_ord F cell_ord))).
    rewrite H. unfold ibase. rewrite in_flat_map. split.
    - intros (p & Hp & Hc). destruct (Nat.eqb_spec (cell_dimension (unrev (snd p))) 1) as [Hd|]; [|destruct Hc]. destruct Hc as [Hc|[]]. injection Hc as <- <-.
      destruct (ps_cells _ Hp) as (H1 & H2 & H3). split; auto. split; auto. split; [|eauto]. destruct (inv_pair_dims HG HE HL H1 H3) as [_ Hdd]. rewrite Hdd, Hd. reflexivity.
    - intros (-> & Hc & Hd & i & Hi). exists ((Reverse c : rC), (Reverse i : rC)). split; [now apply Hpin|]. cbn [fst snd unrev].
      destruct (inv_pair_dims HG HE HL Hc Hi) as [_ Hdd]. destruct (Nat.eqb_spec (cell_dimension i) 1); [simpl; auto|lia].
  Qed.
  Definition NC : list cell_ord := map snd sib.
  Lemma NC_in j : In j NC <-> In j l /\ cell_dimension j = 2 /\ exists i, pair_l i j.
  Proof.
    unfold NC. rewrite in_map_iff. split.
    - intros ([f c] & <- & H). apply sib_in in H. cbn [snd]. tauto.
    - intros H. exists (phi j, j). split; auto. apply sib_in. auto.
  Qed.
  Lemma sib_sorted : StronglySorted (@olt (pair_ord F cell_ord)) sib.
  Proof. apply (@sort_strict (pair_ord F cell_ord)). exact ibase_nodup. Qed.
  Lemma sib_phi p : In p sib -> fst p = phi (snd p).
  Proof. destruct p as [f c]. intros H. apply sib_in in H. apply H. Qed.
  Lemma NC_nodup : NoDup NC.
  Proof. apply (@pairs_snd_nodup F cell_ord sib phiC); [|exact sib_phi]. apply (@sorted_nodup' (pair_ord F cell_ord)). exact sib_sorted. Qed.
  Lemma NC_before x y : before NC x y -> row_lt phiC x y.
  Proof. apply (@pairs_before F cell_ord sib phiC x y sib_sorted sib_phi). Qed.

  (** *** reading the representatives off *)
  Lemma delta_eq (b : bool) : delta (K:=Z2_coeff) b = if b then f1 else f0.
  Proof. reflexivity. Qed.
  Lemma edge_sum_indicator rep s t : NoDup rep -> edge_sum (K:=Z2_coeff) rep (Edge s t) = if in_dec (ord_eq_dec (T:=edge_ord)) (s, t) rep then f1 else f0.
  Proof.
    intros Hn. cbn [edge_sum]. destruct (in_dec (ord_eq_dec (T:=edge_ord)) (s, t) rep) as [Hi|Hi].
    - rewrite (@vsum_single Z2_coeff (nat * nat) rep _ (s, t) Hn Hi).
      + cbn [fst snd]. rewrite !Nat.eqb_refl. reflexivity.
      + intros [a b] _ Hne. cbn [fst snd]. destruct (Nat.eqb_spec a s) as [->|]; auto. destruct (Nat.eqb_spec b t) as [->|]; auto. congruence.
    - apply vsum_0. intros [a b] Hab. cbn [fst snd]. destruct (Nat.eqb_spec a s) as [->|]; auto. destruct (Nat.eqb_spec b t) as [->|]; auto. contradiction.
  Qed.
  Lemma rep_ok (v : vec Z2_coeff cell_ord) (es : list (entry F cell_ord Z2_coeff)) : is_canonical phiC v es ->
    (forall r, v r <> f0 -> exists s t, r = Edge s t) ->
    exists rep, rep_edges es = Ok rep /\ NoDup rep /\ forall r, edge_sum rep r = v r.
  Proof.
    intros (C1 & C2 & C3) Hv. unfold rep_edges.
    assert (Hes : forall e, In e es -> exists s t, e_row e = Edge s t).
    { intros e He. apply Hv. assert (Ee : e = Entry (phi (e_row e)) (e_row e) (e_coeff e)) by (destruct e; cbn; f_equal; apply (C1 _ He)).
      rewrite Ee in He. apply C2 in He. rewrite He. discriminate. }
    destruct (@mapM_rel _ _ (fun e : entry F cell_ord Z2_coeff => match (e_row e : cell) with Edge a b => Ok (a, b) | _ => Panic end) es) as (rep & Erep & Hrep).
    { intros e He. destruct (Hes e He) as (s & t & ->). eauto. }
    exists rep. split; [exact Erep|].
    assert (Hin : forall s t, In (s, t) rep <-> exists e, In e es /\ e_row e = Edge s t).
    { clear - Hrep. intros s t. induction Hrep as [|e r es rep H Hrep IH]; [split; [intros []|intros (e & [] & _)]|]. split.
      - intros [->|Hi]; [exists e; split; [simpl; auto|destruct (e_row e); congruence]|]. apply IH in Hi. destruct Hi as (e' & He' & Er). exists e'. split; simpl; auto.
      - intros (e' & [<-|He'] & Er); [left; rewrite Er in H; congruence|right; apply IH; eauto]. }
    assert (Hnd : NoDup rep).
    { assert (Hrows : forall A e B, es = A ++ e :: B -> forall e', In e' B -> e_row e' <> e_row e).
      { intros A e B Ees e' He' Eq. apply in_split in He'. destruct He' as (B1 & B2 & ->). specialize (C3 A e B1 e' B2 Ees). rewrite Eq in C3. eapply row_lt_irrefl; eauto. }
      clear - Hrep Hrows. assert (H : forall A es', es = A ++ es' -> forall rep', Forall2 (fun (e : entry F cell_ord Z2_coeff) r => match (e_row e : cell) with Edge a b => Ok (a, b) | _ => Panic end = Ok r) es' rep' -> NoDup rep').
      { intros A es' Ees rep' H. revert A Ees. induction H as [|e r es' rep' Her H IH]; intros A Ees; constructor.
        - intros Hr. assert (Hx : exists e', In e' es' /\ (match (e_row e' : cell) with Edge a b => Ok (a, b) | _ => Panic end) = Ok r).
          { clear - H Hr. induction H as [|e r' es' rep' Her H IH]; [destruct Hr|]. destruct Hr as [<-|Hr]; [exists e; simpl; auto|]. destruct (IH Hr) as (e' & H1 & H2). exists e'. simpl; auto. }
          destruct Hx as (e' & He' & Ee'). apply (Hrows A e es' Ees e' He'). destruct (e_row e'), (e_row e); congruence.
        - apply (IH (A ++ [e])). rewrite <- app_assoc. exact Ees. }
      exact (H [] es eq_refl rep Hrep). }
    split; auto. intros r. destruct r as [a|s t|X].
    - cbn [edge_sum]. destruct (fscalar_dec (v (Node a))) as [|Hn]; auto. destruct (Hv _ Hn) as (s & t & ?). discriminate.
    - rewrite edge_sum_indicator by auto. destruct (in_dec (ord_eq_dec (T:=edge_ord)) (s, t) rep) as [Hi|Hi].
      + apply Hin in Hi. destruct Hi as (e & He & Er). assert (Ee : e = Entry (phi (e_row e)) (e_row e) (e_coeff e)) by (destruct e; cbn; f_equal; apply (C1 _ He)).
        rewrite Ee, Er in He. apply C2 in He. rewrite He. destruct (e_coeff e). reflexivity.
      + destruct (v (Edge s t)) as [k|] eqn:Ev; auto. exfalso. apply Hi. apply Hin. apply C2 in Ev. eexists. split; [exact Ev|reflexivity].
    - cbn [edge_sum]. destruct (fscalar_dec (v (TwoCell X))) as [|Hn]; auto. destruct (Hv _ Hn) as (s & t & ?). discriminate.
  Qed.

  Lemma reps_ok : exists reps P1, involution_reps HI fuel z (K:=Z2_coeff) fv fil E sib = Ok reps /\
    NoDup P1 /\ (forall i j, In (i, j) P1 <-> In j l /\ pair_l i j /\ cell_dimension i = 1 /\ phi i <> phi j) /\
    Forall2 (fun (p : cell * cell) rep => represents (K:=Z2_coeff) phi l (fst p) (snd p) rep) P1 reps.
  Proof.
    destruct (@inv_reduce HI Z2_coeff F time n z inf fil E HG Hfil HE phi l HL NC NC_nodup NC_in NC_before sib eq_refl fuel Hfuel) as (v & dg & Ed & Nd & Hp & Hcol).
    unfold involution_reps.
    change (grpph_boundary_build z fil E sib) with (fst (grpph_boundary_build (K:=Z2_coeff) z fil E sib), snd (grpph_boundary_build (K:=Z2_coeff) z fil E sib)). cbv iota beta.
    rewrite Ed. cbn [bind].
    assert (Hpl : forall i j, In (i, j) (pairings dg) <-> In j l /\ pair_l i j /\ cell_dimension i = 1).
    { intros i j. rewrite Hp, NC_in. split.
      - intros ((Hj & Hd & _) & Hij). split; auto. split; auto. destruct (inv_pair_dims HG HE HL Hj Hij) as [_ Hdd]. lia.
      - intros (Hj & Hij & Hd). destruct (inv_pair_dims HG HE HL Hj Hij) as [_ Hdd]. split; auto. split; auto. split; [lia|eauto]. }
    destruct (@flat_mapM_rel _ _ (fun pairing : cell_ord * cell_ord =>
        do birth_f <- fv (fst pairing); do death_f <- fv (snd pairing);
        if oeqb death_f birth_f then Ok []
        else do rep <- build_bhcol HI (product_f (by_ref (fst (grpph_boundary_build (K:=Z2_coeff) z fil E sib))) (mapvec_column v)) (snd pairing);
          do (es, _) <- drain_sorted rep; do new_rep <- rep_edges es; Ok [new_rep])
      (fun p rs => if oeqb (phi (snd p)) (phi (fst p)) then rs = [] else exists rep, rs = [rep] /\ represents (K:=Z2_coeff) phi l (fst p) (snd p) rep) (pairings dg)) as (rs & Ers & HQ).
    { intros [i j] Hij. cbn [fst snd]. pose proof Hij as Hpij. apply Hpl in Hpij. destruct Hpij as (Hj & Hpij & Hd).
      destruct (inv_pair_dims HG HE HL Hj Hpij) as [Hi Hdd]. rewrite (Hfv _ Hi), (Hfv _ Hj). cbn [bind].
      destruct (oeqb (phi j) (phi i)); [eexists; split; reflexivity|].
      destruct (Hcol i j Hij) as (x & h & es & h' & Hx & Hends & Hlead & Eh & Eds & Hcan). rewrite Eh. cbn [bind]. rewrite Eds. cbn [bind].
      assert (Hx' : forall c, x c <> f0 -> In c l /\ cell_dimension c = 2 /\ row_le phiC c j).
      { intros c Hc. apply Hx in Hc. destruct Hc as [Hc1 Hc2]. apply NC_in in Hc1. split; [tauto|]. split; [tauto|]. destruct Hc2 as [->|H]; [right; reflexivity|left; exact H]. }
      destruct (@rep_ok (lincomb lC x bd) es Hcan) as (rep & Erep & Nrep & Hrep).
      { intros r Hr. apply lincomb_nonzero in Hr. destruct Hr as (c & Hc & Hxc & Hn). apply Hx' in Hxc. destruct Hxc as (_ & Hdc & _).
        apply bd_dim in Hn. destruct r as [|s t|]; cbn in Hn; [lia|eauto|lia]. }
      rewrite Erep. cbn [bind]. eexists. split; [reflexivity|]. exists rep. split; auto.
      assert (Hcx : vzero (lincomb lC (edge_sum rep) bd)).
      { intros r. rewrite <- (complex_square (inv_complex (K:=Z2_coeff) HG HE HL) x r). apply lincomb_ext; auto. }
      split; auto. split; [|split; [auto|split; [|split]]].
      - intros s t Hst. assert (Hn : lincomb lC x bd (Edge s t) <> f0).
        { rewrite <- Hrep, edge_sum_indicator by auto. destruct (in_dec (ord_eq_dec (T:=edge_ord)) (s, t) rep); [discriminate|tauto]. }
        apply lincomb_nonzero in Hn. destruct Hn as (c & Hc & _ & Hn). exact (inv_rows HG HE HL c _ Hc Hn).
      - eapply leading_ext; [|exact Hlead]. intros r. symmetry. apply Hrep.
      - exists x. split; auto.
      - intros (y & Hy & Hyr). destruct HL as (Hl & _ & _ & Hord). apply (proj1 Hpij (fun c => fsub (x c) (y c))).
        + apply ends_at_before; auto. split; auto. split.
          * assert (Hy0 : y j = f0). { destruct (fscalar_dec (y j)) as [|Hn]; auto. apply Hy in Hn. destruct Hn as (_ & _ & Hn). exfalso. eapply row_lt_irrefl; eauto. }
            rewrite Hy0. assert (Hxj : x j <> f0) by (destruct Hends as (? & ? & _ & H & _); exact H). destruct (x j) as [[]|]; [discriminate|exfalso; apply Hxj; reflexivity].
          * intros b Hb. assert (Hz : forall w : vec Z2_coeff cell, (forall c, w c <> f0 -> In c l /\ cell_dimension c = 2 /\ row_le phiC c j) -> w b = f0).
            { intros w Hw. destruct (fscalar_dec (w b)) as [|Hn]; auto. exfalso. apply Hw in Hn. destruct Hn as (_ & Hdb & Hle).
              assert (Hlt : row_lt phiC j b). { apply (Hord j b Hb). rewrite Hdb, Hdd, Hd. reflexivity. }
              eapply row_lt_irrefl. eapply row_le_lt_trans; eauto. }
            rewrite (Hz x Hx'), (Hz y). reflexivity. intros c Hc. destruct (Hy c Hc) as (H1 & H2 & H3). split; auto. split; auto. left; exact H3.
        + intros r. transitivity (fadd (lincomb lC x bd r) (fmul (fopp f1) (lincomb lC y bd r))).
          * rewrite <- lincomb_scale, <- lincomb_add. apply lincomb_ext; auto. intros b _. ring.
          * rewrite Hyr, Hrep. ring. }
    rewrite Ers. cbn [bind]. exists (concat rs), (filter (fun p => negb (oeqb (phi (snd p)) (phi (fst p)))) (pairings dg)). split; auto. split; [now apply NoDup_filter|]. split.
    - intros i j. rewrite filter_In, Hpl. cbn [fst snd]. destruct (oeqb_spec (phi j) (phi i)) as [Eq|Ne]; cbn [negb]; split.
      + intros [_ Hx]; discriminate Hx.
      + intros (_ & _ & _ & Hne). exfalso; auto.
      + intros ((H1 & H2 & H3) & _). repeat (split; [assumption|]). intros H4. apply Ne. symmetry. exact H4.
      + intros (H1 & H2 & H3 & _). auto.
    - clear - HQ. induction HQ as [|p r ps rs H HQ IH]; [constructor|]. destruct p as [i j]. cbn [filter concat fst snd] in *. destruct (oeqb (phi j) (phi i)); cbn [negb].
      + subst r. exact IH.
      + destruct H as (rep & -> & H). cbn [app]. constructor; auto.
  Qed.
End Reps.
