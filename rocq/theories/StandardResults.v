(** The properties of the standard algorithm, assembled. *)
From Verif Require Import Base Fields Spec LinAlg Columns ColumnsFacts Matrices SpecMat MatricesFacts Reduction LoopProofs StandardProofs ReadOffProofs Graded.
From Coq Require Import Ring Field Sorted.
Set Implicit Arguments.

Section SR.
  Variable HI : heaps.
  Context {K : coeffT} {C F : ordT}.
  Add Field KFSR : (F_field K).
  Variables (phi : C -> F) (D : fmatrix K C C F) (b : basis C) (l : list C).
  Hypothesis Hsq : square_matrix phi D b l.
  Variable fuel : nat.
  Hypothesis Hfuel : length (row_set (m_col D) l) < fuel.

  Let Hl : NoDup l := proj1 Hsq.
  Let Hb : enumerates b l := proj1 (proj2 Hsq).
  Let HD : forall c, In c l -> coherent_at phi D c := proj2 (proj2 Hsq).

  Lemma std_ok : exists v, standard_algo HI fuel D b = Ok v /\ forall c, In c l <-> map_get c v <> None.
  Proof.
    destruct (standard_algo_inv HI Hl Hb HD Hfuel) as (v & low & E & I1 & I2 & _).
    exists v. split; auto. intros c. split.
    - intros Hc. destruct (I1 c Hc) as (lv & -> & _). discriminate.
    - intros Hn. destruct (in_dec ord_eq_dec c l) as [|Hni]; auto. exfalso. auto.
  Qed.

  Lemma std_inv_of v : standard_algo HI fuel D b = Ok v -> exists low, std_inv phi D l l (v, low).
  Proof.
    destruct (standard_algo_inv HI Hl Hb HD Hfuel) as (v' & low & E & Hinv).
    intros E'. exists low. congruence.
  Qed.

  Lemma std_columns v : standard_algo HI fuel D b = Ok v -> forall c, In c l ->
    exists lv, map_get c v = Some lv /\ coef lv c = f1 /\
      (forall k x, In (k, x) lv -> x = c \/ before l x c) /\
      StronglySorted (fun x y => olt y x) (map snd lv).
  Proof.
    intros E c Hc. destruct (std_inv_of E) as (low & I1 & _). destruct (I1 c Hc) as (lv & Hg & H1 & _ & H2 & P1 & P2 & El & H3).
    exists lv. refine (conj Hg (conj H1 (conj _ H2))). intros k x Hx. apply H3 in Hx.
    apply in_app_iff in Hx. destruct Hx as [Hx|[<-|[]]]; auto. right.
    apply in_split in Hx. destruct Hx as (A & A' & ->). exists A, A', P2. rewrite El, <- app_assoc. reflexivity.
  Qed.

  Lemma product_stored v c : (exists lv, map_get c v = Some lv /\ forall k x, In (k, x) lv -> In x l) ->
    (exists t, product (m_col D) (mapvec_column v) c = Ok t) /\
    forall r, mden (product (m_col D) (mapvec_column v)) c r = lincomb l (stored v c) (mden (m_col D)) r.
  Proof.
    intros (lv & Hg & Hin). unfold mden at 1, product.
    assert (Ec : mapvec_column v c = Ok lv) by (unfold mapvec_column; now rewrite Hg).
    rewrite Ec. cbn [bind].
    destruct (@matrix_col_product_ok K C C (m_col D) lv) as (t & Et & _ & Hc).
    { intros k j Hj. destruct (@HD j (Hin k j Hj)) as (t & es & H1 & _). eauto. }
    rewrite Et. split; eauto. intros r. rewrite Hc.
    rewrite (@coef_combine K C C lv (mden (m_col D)) l r); eauto.
    apply lincomb_ext; auto. intros x _. unfold stored. now rewrite (mden_ok _ _ _ Ec).
  Qed.

  Lemma std_support v : standard_algo HI fuel D b = Ok v -> forall c, In c l ->
    exists lv, map_get c v = Some lv /\ forall k x, In (k, x) lv -> In x l.
  Proof.
    intros E c Hc. destruct (std_columns E c Hc) as (lv & Hg & _ & H & _). exists lv. split; auto.
    intros k x Hx. destruct (H k x Hx) as [->|Hbf]; auto. apply before_in in Hbf. tauto.
  Qed.

  Lemma std_triangular v : standard_algo HI fuel D b = Ok v -> triangular l (stored v).
  Proof. intros E. destruct (std_inv_of E) as (low & Hinv). eapply std_inv_triangular; eauto. Qed.

  Lemma std_reduced v : standard_algo HI fuel D b = Ok v ->
    (forall c, In c l -> exists t, product (m_col D) (mapvec_column v) c = Ok t) /\
    reduced phi l (mden (product (m_col D) (mapvec_column v))).
  Proof.
    intros E. destruct (std_inv_of E) as (low & Hinv). assert (Hr : reduced phi l (rd D l v)) by (eapply std_inv_reduced; eauto).
    split.
    - intros c Hc. apply (product_stored _ _ (std_support E c Hc)).
    - intros j k i Hj Hk H1 H2. apply (Hr j k i Hj Hk).
      + eapply leading_ext; [|exact H1]. apply (product_stored _ _ (std_support E j Hj)).
      + eapply leading_ext; [|exact H2]. apply (product_stored _ _ (std_support E k Hk)).
  Qed.

  (** reading a diagram off any stored V whose columns are combinations of basis elements *)
  Lemma read_off_general v rev_order :
    (forall c, In c l -> exists lv, map_get c v = Some lv /\ forall k x, In (k, x) lv -> In x l) ->
    let R := mden (product (m_col D) (mapvec_column v)) in
    exists dg, read_off_diagram HI D b v rev_order = Ok dg /\
      NoDup (essential dg) /\ NoDup (pairings dg) /\
      (forall i c, In (i, c) (pairings dg) <-> In c l /\ leading phi (R c) i) /\
      ((forall i j, In i l -> In (i, j) (pairings dg) -> if rev_order then before l j i else before l i j) ->
       forall c, In c (essential dg) <-> In c l /\ vzero (R c) /\ forall k, In k l -> ~ leading phi (R k) c) /\
      ((forall i j, In i l -> In (i, j) (pairings dg) -> if rev_order then before l i j else before l j i) ->
       forall c, In c (essential dg) <-> In c l /\ vzero (R c)).
  Proof.
    intros Hv R. destruct (@read_off_spec HI K C F phi D b l Hl Hb HD v Hv rev_order) as (dg & E & Hinv).
    exists dg. split; auto.
    assert (HT : forall c, In c l <-> In c (if rev_order then rev l else l)).
    { intros c. destruct rev_order; [apply in_rev|reflexivity]. }
    assert (HnT : NoDup (if rev_order then rev l else l)).
    { destruct rev_order; auto. now apply NoDup_rev. }
    assert (HRe : forall c, In c l -> forall r, R c r = rd D l v c r).
    { intros c Hc. apply (product_stored _ _ (Hv c Hc)). }
    assert (HL : forall c i, In c l -> (leading phi (R c) i <-> leading phi (rd D l v c) i)).
    { intros c i Hc. split; apply leading_ext; intros r; rewrite (HRe c Hc); auto. }
    assert (HZ : forall c, In c l -> (vzero (R c) <-> vzero (rd D l v c))).
    { intros c Hc. split; intros H r; specialize (H r); rewrite (HRe c Hc) in *; auto. }
    assert (Hpair : forall i c, In (i, c) (pairings dg) <-> In c l /\ leading phi (R c) i).
    { destruct Hinv as (_ & _ & Hp & _). intros i c. rewrite Hp, <- HT.
      split; intros [Hc H]; split; auto; apply (HL c i Hc); auto. }
    split; [apply Hinv|]. split; [apply Hinv|]. split; [exact Hpair|]. split.
    - intros Hbf c. rewrite (read_essential HT HnT Hinv).
      + split; intros (H1 & H2 & H3); (split; [auto|split; [apply HZ; auto|]]); intros k Hk H;
          apply (H3 k Hk); apply HL; auto.
      + intros i j Hi Hj Hlead. assert (Hx : In (i, j) (pairings dg)) by (apply Hpair; split; auto; apply HL; auto).
        specialize (Hbf i j Hi Hx). destruct rev_order; auto. now apply before_rev.
    - intros Hbf c. rewrite (read_essential_wrong HT HnT Hinv).
      + split; intros (H1 & H2); split; auto; apply HZ; auto.
      + intros i j Hi Hj Hlead. assert (Hx : In (i, j) (pairings dg)) by (apply Hpair; split; auto; apply HL; auto).
        specialize (Hbf i j Hi Hx). destruct rev_order; auto. now apply before_rev.
  Qed.

  Lemma mden_fin x : vzero (lincomb l x (mden (m_col D))) \/ exists i, leading phi (lincomb l x (mden (m_col D))) i.
  Proof. apply lincomb_dich. Qed.
End SR.

Section SR2.
  Variable HI : heaps.
  Context {K : coeffT} {C F : ordT}.
  Variables (phi : C -> F) (D : fmatrix K C C F) (b : basis C) (l : list C).
  Hypothesis Hsq : square_matrix phi D b l.
  Variable fuel : nat.
  Hypothesis Hfuel : length (row_set (m_col D) l) < fuel.
  Notation Dm := (mden (m_col D)).

  Lemma square_by_ref : square_matrix phi (by_ref D) b l.
  Proof.
    destruct Hsq as (H1 & H2 & H3). split; auto. split; auto. intros c Hc. apply coherent_by_ref; auto.
  Qed.

  (** decomposition and diagram computed by the whole pipeline *)
  Lemma std_diagram rev_order :
    exists v dg, standard_algo_with_diagram HI fuel D b rev_order = Ok (v, dg) /\
      triangular l (stored v) /\ reduced phi l (fun j => lincomb l (stored v j) Dm) /\
      NoDup (essential dg) /\ NoDup (pairings dg) /\
      (forall i j, In (i, j) (pairings dg) <-> In j l /\ is_pair phi l Dm i j) /\
      ((forall i j, In i l -> In j l -> is_pair phi l Dm i j -> if rev_order then before l j i else before l i j) ->
       forall c, In c (essential dg) <-> is_essential phi l Dm c) /\
      ((forall i j, In i l -> In j l -> is_pair phi l Dm i j -> if rev_order then before l i j else before l j i) ->
       forall c, In c (essential dg) <-> In c l /\ is_positive l Dm c).
  Proof.
    pose proof square_by_ref as Hsq'. pose proof (proj1 Hsq) as Hnd.
    assert (Hfuel' : length (row_set (m_col (by_ref D)) l) < fuel) by exact Hfuel.
    destruct (std_ok HI Hsq' Hfuel') as (v & Ev & _).
    pose proof (std_support HI Hsq' Hfuel' Ev) as Hsup.
    destruct (read_off_general HI Hsq' _ rev_order Hsup) as (dg & Edg & N1 & N2 & Hp & He & Hw).
    unfold standard_algo_with_diagram. rewrite Ev. cbn [bind]. rewrite Edg. cbn [bind].
    exists v, dg. split; auto.
    pose proof (std_triangular HI Hsq' Hfuel' Ev) as Ht.
    destruct (std_reduced HI Hsq' Hfuel' Ev) as [_ Hr].
    change (m_col (by_ref D)) with (m_col D) in *.
    set (R := mden (product (m_col D) (mapvec_column v))) in *.
    set (R' := fun j => lincomb l (stored v j) Dm).
    assert (HRe : forall c, In c l -> forall r, R c r = R' c r).
    { intros c Hc. apply (product_stored Hsq' _ _ (Hsup c Hc)). }
    assert (Hr' : reduced phi l R').
    { intros j k i Hj Hk H1 H2. apply (Hr j k i Hj Hk).
      - eapply leading_ext; [|exact H1]. intros r. now rewrite HRe.
      - eapply leading_ext; [|exact H2]. intros r. now rewrite HRe. }
    assert (Hd : dich phi R' l) by (intros j _; apply lincomb_dich).
    assert (HL : forall c i, In c l -> (leading phi (R c) i <-> is_pair phi l Dm i c)).
    { intros c i Hc. rewrite <- (intrinsic_pair Hnd Ht Hr' Hd) by auto.
      split; apply leading_ext; intros r; rewrite (HRe c Hc); auto. }
    assert (HZ : forall c, In c l -> (vzero (R c) <-> is_positive l Dm c)).
    { intros c Hc. rewrite <- (intrinsic_positive Hnd Ht Hr' Hd) by auto.
      split; intros H r; specialize (H r); rewrite (HRe c Hc) in *; auto. }
    refine (conj Ht (conj Hr' (conj N1 (conj N2 (conj _ (conj _ _)))))).
    - intros i j. rewrite Hp. split; intros [Hj H]; split; auto; apply HL; auto.
    - intros Hbf c. rewrite He.
      + unfold is_essential. split; intros (H1 & H2 & H3); (split; [auto|split; [apply HZ; auto|]]); intros k Hk H;
          apply (H3 k Hk), HL; auto.
      + intros i j Hi Hij. apply Hp in Hij. destruct Hij as [Hj Hij]. apply Hbf; auto. apply HL; auto.
    - intros Hbf c. rewrite Hw.
      + split; intros (H1 & H2); split; auto; apply HZ; auto.
      + intros i j Hi Hij. apply Hp in Hij. destruct Hij as [Hj Hij]. apply Hbf; auto. apply HL; auto.
  Qed.

  Lemma std_decomposition : exists V, triangular l V /\ reduced phi l (fun j => lincomb l (V j) Dm).
  Proof.
    destruct (std_diagram false) as (v & _ & _ & H1 & H2 & _). eauto.
  Qed.

  (** columns of [D] only contain earlier basis elements *)
  Lemma lower_pairs_before : (forall c r, In c l -> Dm c r <> f0 -> before l r c) ->
    forall i j, In j l -> is_pair phi l Dm i j -> before l i j.
  Proof.
    intros HU i j Hj (_ & (x & (B1 & B2 & E & Hxj & Hz) & [Hn _]) & _).
    apply lincomb_nonzero in Hn. destruct Hn as (c & Hc & Hxc & Hn).
    specialize (HU c i Hc Hn). pose proof (proj1 Hsq) as Hnd.
    rewrite E in Hc. apply in_app_iff in Hc. destruct Hc as [Hc|[<-|Hc]]; auto.
    - eapply before_trans; eauto. apply in_split in Hc. destruct Hc as (A & A' & ->).
      exists A, A', B2. rewrite E, <- app_assoc. reflexivity.
    - exfalso. apply Hxc. auto.
  Qed.

  (** [D] moves between consecutive blocks of a graded basis *)
  Lemma graded_pairs g e : graded g e l Dm ->
    forall i j, is_pair phi l Dm i j -> g i = (g j + e)%Z.
  Proof. intros Hg i j. apply pair_grade; auto. intros x. apply lincomb_dich. Qed.

  Lemma std_partition g e : complex l Dm -> graded g e l Dm -> graded_order phi g l ->
    forall c, In c l ->
      (is_essential phi l Dm c \/
       (exists j, In j l /\ is_pair phi l Dm c j) \/
       (exists i, In i l /\ is_pair phi l Dm i c)) /\
      ~ (is_essential phi l Dm c /\ exists j, In j l /\ is_pair phi l Dm c j) /\
      ~ (is_essential phi l Dm c /\ exists i, is_pair phi l Dm i c) /\
      ~ ((exists j, In j l /\ is_pair phi l Dm c j) /\ exists i, is_pair phi l Dm i c) /\
      (forall j j', In j l -> In j' l -> is_pair phi l Dm c j -> is_pair phi l Dm c j' -> j = j') /\
      (forall i i', is_pair phi l Dm i c -> is_pair phi l Dm i' c -> i = i').
  Proof.
    intros Hcx Hg Ho c Hc. destruct std_decomposition as (V & Ht & Hr).
    pose proof (proj1 Hsq) as Hnd.
    pose proof (fun x => @lincomb_dich K C C F phi (m_col D) l x) as Hfin.
    assert (Hbp : forall i j, In j l -> is_pair phi l Dm i j -> In i l /\ is_positive l Dm i).
    { intros i j Hj Hp. eapply birth_positive; eauto. }
    refine (conj _ (conj _ (conj _ (conj _ (conj _ _))))).
    - destruct (positive_or_death Hnd Ht Hr Hfin c Hc) as [Hpos|(i & Hi)].
      + destruct (birth_dec Hnd Ht Hr Hfin c Hc) as [Hbd|Hbd]; auto.
        left. split; auto.
      + right. right. exists i. split; auto. eapply Hbp; eauto.
    - intros [(_ & _ & H) (j & Hj & Hp)]. eapply H; eauto.
    - intros [(_ & H & _) (i & Hp)]. eapply positive_not_death; eauto.
    - intros [(j & Hj & Hp) (i & Hp')]. destruct (Hbp _ _ Hj Hp) as [_ Hpos]. eapply positive_not_death; eauto.
    - intros j j' Hj Hj' H1 H2. exact (@pair_death_unique _ _ _ _ _ _ _ Hnd Ht Hr Hfin c j j' Hj Hj' H1 H2).
    - intros i i' H1 H2. exact (@pair_birth_unique _ _ _ _ _ _ _ Hnd Ht Hr Hfin i i' c Hc H1 H2).
  Qed.
End SR2.
