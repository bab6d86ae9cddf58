(** Lemmas for C54: the Rips boundary matrix as a filtered complex, its pairs, and changing the list of cells away
    from the degrees in play. *)
From Verif Require Import Base Fields FieldsFacts Spec LinAlg Columns ColumnsFacts Matrices SpecMat MatricesFacts Reduction StandardProofs ReadOffProofs Graded StandardResults ClearingProofs PropClearing Duality PropDuality Rips SpecRips RipsCode RipsFacts RipsBasis PropRips RipsComplex RipsCohomology PropRipsCohomology SpecPH Persistence BettiUnique.
From Coq Require Import Ring Field Ring_theory Sorted Lia.
Set Implicit Arguments.

(** ** Cells outside degrees [n] and [n - e] do not matter in degree [n] *)
Section Transfer.
  Context {K : coeffT} {F C : ordT} (phi : C -> F) (g : C -> Z) (e : Z) (l l2 : list C) (D : C -> vec K C) (n : Z).
  Hypothesis H1 : NoDup l.
  Hypothesis H2 : NoDup l2.
  Hypothesis Hn : forall c, g c = n \/ g c = (n - e)%Z -> (In c l <-> In c l2).

  Lemma chain_transfer k t (z : vec K C) : k = n \/ k = (n - e)%Z -> (chain_at phi g l k t z <-> chain_at phi g l2 k t z).
  Proof.
    intros Hk. split; intros H c Hc; destruct (H c Hc) as (Hin & Hg & Ht); (split; [|split; auto]); apply Hn; auto; rewrite Hg; auto.
  Qed.
  Lemma bdry_transfer k t (z : vec K C) : k = n \/ k = (n - e)%Z -> chain_at phi g l k t z -> forall r, bdry l D z r = bdry l2 D z r.
  Proof.
    intros Hk Hz r. unfold bdry. set (f := fun c : C => (g c =? k)%Z).
    assert (A : forall B, NoDup B -> (forall c, In c B -> z c <> f0 -> g c = k) -> lincomb B z D r = lincomb (filter f B) z D r).
    { intros B HB Hc. apply lincomb_incl; auto; [now apply NoDup_filter|intros x Hx; apply filter_In in Hx; tauto|].
      intros b Hb Hnb. destruct (fscalar_dec (z b)) as [|Hx]; auto. exfalso. apply Hnb. apply filter_In. split; auto. apply Z.eqb_eq. auto. }
    rewrite (A l) by (auto; intros c _ Hc; apply (Hz c Hc)). rewrite (A l2) by (auto; intros c _ Hc; apply (Hz c Hc)).
    apply lincomb_incl; try now apply NoDup_filter.
    - intros c Hc. apply filter_In in Hc. destruct Hc as [Hc Hg]. apply filter_In. split; auto. apply Z.eqb_eq in Hg. apply Hn; auto. rewrite Hg. auto.
    - intros c Hc Hno. exfalso. apply Hno. apply filter_In in Hc. destruct Hc as [Hc Hg]. apply filter_In. split; auto. apply Z.eqb_eq in Hg. apply Hn; auto. rewrite Hg. auto.
  Qed.
  Lemma cycle_transfer t z : cycle_at phi g l D n t z -> cycle_at phi g l2 D n t z.
  Proof.
    intros [Hc Hz]. split; [apply chain_transfer; auto|]. intros r. rewrite <- (@bdry_transfer n t); auto.
  Qed.
  Lemma boundary_transfer t z : boundary_at phi g e l D n t z -> boundary_at phi g e l2 D n t z.
  Proof.
    intros (w & Hw & E). exists w. split; [apply chain_transfer; auto|]. intros r. rewrite <- (@bdry_transfer (n - e)%Z t); auto.
  Qed.
End Transfer.

Lemma basis_transfer {K : coeffT} {F C I : ordT} (phi : C -> F) g e l l2 (D : C -> vec K C) n s t (bars : list I) Z :
  NoDup l -> NoDup l2 -> (forall c, g c = n \/ g c = (n - e)%Z -> (In c l <-> In c l2)) ->
  persistent_basis phi g e l D n s t bars Z -> persistent_basis phi g e l2 D n s t bars Z.
Proof.
  intros H1 H2 Hn (A1 & A2 & A3 & A4).
  assert (Hn' : forall c, g c = n \/ g c = (n - e)%Z -> (In c l2 <-> In c l)) by (intros c Hc; symmetry; auto).
  split; auto. split; [|split].
  - intros b Hb. eapply cycle_transfer with (l := l); eauto.
  - intros z Hz. destruct (A3 z) as (a & Ha); [eapply cycle_transfer with (l := l2); eauto|]. exists a. eapply boundary_transfer with (l := l); eauto.
  - intros a Ha b Hb. apply (A4 a); auto. eapply boundary_transfer with (l := l2); eauto.
Qed.

(** ** The boundary matrix of the specification *)
Section SpecBoundary.
  Context {K : coeffT} (n : nat) (D : N -> vec K N).
  Hypothesis HD : rips_boundary_matrix n D.
  Add Field KFSB : (F_field K).
  Lemma sb_inc t s : simplex n t -> simplex n s -> D (code n t) (code n s) = inc t s.
  Proof.
    intros Ht Hs. destruct HD as [D1 D2]. destruct (facet_dec t s) as [(i & Hf)|Hno].
    - rewrite (D1 s t i) by auto. symmetry. apply inc_facet; auto. destruct Ht as (_ & Hst & _). now apply sorted_nodup.
    - rewrite inc_none by exact Hno. destruct (fscalar_dec (D (code n t) (code n s))) as [->|Hnz]; auto. exfalso.
      apply D2 in Hnz; auto. destruct Hnz as (s' & i & Hs' & Hf & E). apply code_inj in E; [|apply Hs|apply Hs']. subst s'. apply (Hno i). exact Hf.
  Qed.
  Lemma sb_graded dim k l : simplex_dim n dim -> lists_simplices n k l -> graded dim (-1) (l : list N_ord) D.
  Proof.
    intros Hdim [_ Hl] c r Hc Hnz. apply Hl in Hc. destruct Hc as (t & Ht & _ & ->). apply HD in Hnz; auto. destruct Hnz as (s & i & Hs & Hf & ->).
    rewrite !Hdim by auto. rewrite (facet_length Hf). lia.
  Qed.
  Lemma sb_complex k l : lists_simplices n k l -> complex (l : list N_ord) D.
  Proof.
    intros [Hnd Hl]. split.
    - intros c r Hc Hnz. apply Hl in Hc. destruct Hc as (t & Ht & Hlt & ->). apply HD in Hnz; auto. destruct Hnz as (s & i & Hs & Hf & ->).
      apply Hl. exists s. split; auto. split; auto. pose proof (facet_length Hf). lia.
    - intros c Hc r. apply Hl in Hc. destruct Hc as (t & Ht & Hlt & ->).
      destruct (fscalar_dec (lincomb (l : list N_ord) (D (code n t)) D r)) as [|Hnz]; auto. exfalso.
      pose proof Hnz as Hnz'. apply lincomb_nonzero in Hnz'. destruct Hnz' as (c & Hc & Htc & Hcr).
      apply Hl in Hc. destruct Hc as (s & Hs & _ & ->). apply HD in Hcr; auto. destruct Hcr as (u & i & Hu & Hf & ->).
      apply HD in Htc; auto. destruct Htc as (s' & i' & Hs' & Hf' & E). apply code_inj in E; [|apply Hs|apply Hs']. subst s'.
      apply Hnz. unfold lincomb.
      set (dec := fun c => match to_vec n c with Ok s => s | _ => [] end).
      assert (Hdec : forall s, simplex n s -> dec (code n s) = s) by (intros x Hx; unfold dec; rewrite to_vec_code by apply Hx; reflexivity).
      assert (El : map (code n) (map dec l) = l).
      { rewrite map_map. rewrite <- (map_id l) at 2. apply map_ext_in. intros c Hc. apply Hl in Hc. destruct Hc as (x & Hx & _ & ->). now rewrite Hdec. }
      assert (Hin : forall x, In x (map dec l) <-> simplex n x /\ length x <= k).
      { intros x. rewrite in_map_iff. split.
        - intros (c & E & Hc). apply Hl in Hc. destruct Hc as (y & Hy & Hly & ->). rewrite Hdec in E by auto. now subst y.
        - intros [Hx Hlx]. exists (code n x). split; [auto|]. apply Hl. eauto. }
      transitivity (vsum (map dec l) (fun s => fmul (D (code n t) (code n s)) (D (code n s) (code n u)))).
      { transitivity (vsum (map (code n) (map dec l)) (fun c => fmul (D (code n t) c) (D c (code n u)))); [now rewrite El|apply vsum_map]. }
      transitivity (vsum (map dec l) (fun s => fmul (inc s u : option K) (inc t s))).
      { apply vsum_ext. intros x Hx. apply Hin in Hx. destruct Hx as [Hx _]. rewrite !sb_inc by auto. ring. }
      rewrite vsum_inc.
      + unfold inc. apply bsum_bsum.
      + apply (NoDup_map_inv (code n)). rewrite El. exact Hnd.
      + intros j x Hx. apply Hin. pose proof (facet_length Hx). pose proof (facet_length Hf'). pose proof (facet_length Hf).
        split; [|lia]. apply (@facet_simplex n t j x); auto. intros ->. cbn [length] in *.
        assert (length u <> 0) by (destruct u; [destruct Hu; congruence|cbn; lia]). lia.
  Qed.
End SpecBoundary.

(** ** Filters and reversed bases *)
Lemma filter_rev_list {A} (f : A -> bool) (l : list A) : filter f (rev l) = rev (filter f l).
Proof.
  induction l as [|a l IH]; auto. cbn [rev filter]. rewrite filter_app, IH. cbn [filter]. destruct (f a); cbn [rev]; [auto|now rewrite app_nil_r].
Qed.
Lemma filter_rev_basis {C} (f : reverse C -> bool) (l : list C) : filter f (rev_basis l) = rev_basis (filter (fun c => f (Reverse c)) l).
Proof.
  unfold rev_basis. rewrite <- filter_rev_list. induction (rev l) as [|a t IH]; auto. cbn [map filter]. rewrite IH. destruct (f (Reverse a)); auto.
Qed.
Lemma filter_filter_sub {A} (f g : A -> bool) (l : list A) : (forall x, In x l -> f x = true -> g x = true) -> filter f (filter g l) = filter f l.
Proof.
  induction l as [|a l IH]; intros H; auto. cbn [filter]. destruct (g a) eqn:Eg; cbn [filter].
  - rewrite IH; auto. intros x Hx. apply H. now right.
  - rewrite IH by (intros x Hx; apply H; now right). destruct (f a) eqn:Ef; auto. rewrite (H a) in Eg by (auto; now left). discriminate.
Qed.
Lemma before_filter {A} (f : A -> bool) (l : list A) x y : before (filter f l) x y -> before l x y.
Proof.
  rewrite !before_split. induction l as [|a l IH]; cbn [filter]; [intros (A1 & B1 & E & _); destruct A1; discriminate|].
  destruct (f a) eqn:Ef.
  - intros ([|a1 A1] & B & E & Hy); cbn in E.
    + injection E as <- <-. exists [], l. split; auto. apply filter_In in Hy. tauto.
    + injection E as <- E. destruct IH as (A2 & B2 & -> & Hy2); [eauto|]. exists (a :: A2), B2. auto.
  - intros H. destruct (IH H) as (A2 & B2 & -> & Hy2). exists (a :: A2), B2. auto.
Qed.

(** ** Listing the pairs and the essential cells *)
Section Lists.
  Context {K : coeffT} {F C : ordT} (phi : C -> F) (l : list C) (D V : C -> vec K C).
  Hypothesis Hl : NoDup l.
  Hypothesis Hcx : complex l D.
  Hypothesis HV : triangular l V.
  Hypothesis HR : reduced phi l (fun j => lincomb l (V j) D).
  Lemma pairs_list : exists P, NoDup P /\ forall i j, In (i, j) P <-> In j l /\ is_pair phi l D i j.
  Proof.
    pose proof (per_fin phi Hcx) as Hfin.
    assert (H : forall B, incl B l -> NoDup B -> exists P, NoDup P /\ forall i j, In (i, j) P <-> In j B /\ is_pair phi l D i j).
    { induction B as [|c B IH]; intros Hi Hn.
      - exists []. split; [constructor|]. intros i j. split; [intros []|intros [[] _]].
      - apply NoDup_cons_iff in Hn. destruct Hn as [Hc Hn]. destruct IH as (P & HP & HPi); auto; [intros x Hx; apply Hi; now right|].
        assert (Hcl : In c l) by (apply Hi; now left).
        assert (Hip : forall i, is_pair phi l D i c <-> leading phi (lincomb l (V c) D) i).
        { intros i. symmetry. apply (intrinsic_pair Hl HV HR (fun j _ => Hfin (V j))); auto. }
        destruct (Hfin (V c)) as [Hz|(i0 & Hi0)].
        + exists P. split; auto. intros i j. rewrite HPi. split; [intros [A B1]; split; auto; now right|]. intros [[<-|A] B1]; auto.
          exfalso. apply Hip in B1. eapply leading_not_zero; eauto.
        + exists ((i0, c) :: P). split.
          * constructor; auto. intros A. apply HPi in A. tauto.
          * intros i j. split.
            -- intros [[= <- <-]|A]; [split; [now left|now apply Hip]|apply HPi in A; split; [right|]; tauto].
            -- intros [[<-|A] B1]; [left|right; apply HPi; auto]. apply Hip in B1. f_equal. eapply leading_unique; eauto. }
    apply H; auto. apply incl_refl.
  Qed.
  Lemma essential_dec c : In c l -> is_essential phi l D c \/ ~ is_essential phi l D c.
  Proof.
    intros Hc. pose proof (per_fin phi Hcx) as Hfin.
    destruct (positive_or_death Hl HV HR Hfin c Hc) as [Hp|(i & Hi)].
    - destruct (birth_dec Hl HV HR Hfin c Hc) as [(k & Hk & Hb)|Hb].
      + right. intros (_ & _ & H). eapply H; eauto.
      + left. split; auto.
    - right. intros (_ & H & _). eapply positive_not_death; eauto.
  Qed.
  Lemma essential_list : exists E, NoDup E /\ forall c, In c E <-> is_essential phi l D c.
  Proof.
    assert (H : forall B, incl B l -> NoDup B -> exists E, NoDup E /\ forall c, In c E <-> In c B /\ is_essential phi l D c).
    { induction B as [|c B IH]; intros Hi Hn.
      - exists []. split; [constructor|]. intros c. split; [intros []|intros [[] _]].
      - apply NoDup_cons_iff in Hn. destruct Hn as [Hc Hn]. destruct IH as (E & HE & HEi); auto; [intros x Hx; apply Hi; now right|].
        assert (Hcl : In c l) by (apply Hi; now left). destruct (essential_dec _ Hcl) as [He|He].
        + exists (c :: E). split; [constructor; auto; intros A; apply HEi in A; tauto|]. intros x. split.
          * intros [<-|A]; [split; auto; now left|apply HEi in A; split; [right|]; tauto].
          * intros [[<-|A] B1]; [now left|right; apply HEi; auto].
        + exists E. split; auto. intros x. rewrite HEi. split; [intros [A B1]; split; auto; now right|]. intros [[<-|A] B1]; tauto. }
    destruct (H l (incl_refl _) Hl) as (E & HE & HEi). exists E. split; auto. intros c. rewrite HEi. split; [tauto|]. intros A. split; auto. apply A.
  Qed.
End Lists.

(** ** If lists of pairs and essential cells are right up to degree [m], they are the barcode up to degree [m] *)
Section UpTo.
  Context {K : coeffT} {F C : ordT} (phi : C -> F) (g : C -> Z) (e : Z) (l : list C) (D : C -> vec K C) (m : Z).
  Hypothesis Hl : NoDup l.
  Hypothesis Hcx : complex l D.
  Hypothesis Hg : graded g e l D.
  Hypothesis HO : graded_order phi g l.
  Variables (E : list C) (P : list (C * C)).
  Hypothesis HEn : NoDup E.
  Hypothesis HPn : NoDup P.
  Hypothesis HP : forall i j, In (i, j) P <-> (g i <= m)%Z /\ In j l /\ is_pair phi l D i j.
  Hypothesis HE : forall c, In c E <-> (g c <= m)%Z /\ is_essential phi l D c.
  Lemma barcode_upto : exists Z : C -> vec K C,
    (forall c, In c E -> cycle_at phi g l D (g c) (phi c) (Z c)) /\
    (forall i j, In (i, j) P -> cycle_at phi g l D (g i) (phi i) (Z i) /\ boundary_at phi g e l D (g i) (phi j) (Z i)) /\
    forall n s t, (n <= m)%Z -> persistent_basis phi g e l D n s t (alive phi g E P n s t) Z.
  Proof.
    destruct (decomposition_exists phi D Hl) as (V & HV & HR); [apply Hcx|].
    destruct (pairs_list Hl Hcx HV HR) as (P0 & N0 & HP0). destruct (essential_list Hl Hcx HV HR) as (E0 & M0 & HE0).
    set (P' := P ++ filter (fun p => (m <? g (fst p))%Z) P0). set (E' := E ++ filter (fun c => (m <? g c)%Z) E0).
    assert (HP' : forall i j, In (i, j) P' <-> In j l /\ is_pair phi l D i j).
    { intros i j. unfold P'. rewrite in_app_iff, filter_In, HP, HP0. cbn [fst]. rewrite Z.ltb_lt. split; [tauto|]. intros H. destruct (Z.le_gt_cases (g i) m); [left; tauto|right; tauto]. }
    assert (HE' : forall c, In c E' <-> is_essential phi l D c).
    { intros c. unfold E'. rewrite in_app_iff, filter_In, HE, HE0. rewrite Z.ltb_lt. split; [tauto|]. intros H. destruct (Z.le_gt_cases (g c) m); [left; tauto|right; tauto]. }
    assert (NP : NoDup P').
    { apply nodup_app_intro; auto; [now apply NoDup_filter|]. intros [i j] H1 H2. apply filter_In in H2. destruct H2 as [_ H2]. cbn [fst] in H2. apply Z.ltb_lt in H2. apply HP in H1. lia. }
    assert (NE : NoDup E').
    { apply nodup_app_intro; auto; [now apply NoDup_filter|]. intros c H1 H2. apply filter_In in H2. destruct H2 as [_ H2]. apply Z.ltb_lt in H2. apply HE in H1. lia. }
    exists (Y g l D V P'). split; [|split].
    - intros c Hc. apply (@interval_born K F C phi g e l D V Hl Hcx Hg HO HV HR E' P' HP' HE'). left. apply in_app_iff. auto.
    - intros i j Hij. assert (Hij' : In (i, j) P') by (apply in_app_iff; auto). split.
      + apply (@interval_born K F C phi g e l D V Hl Hcx Hg HO HV HR E' P' HP' HE'). eauto.
      + apply (@interval_bounds K F C phi g e l D V Hl Hcx Hg HO HV HR P' HP'); auto.
    - intros n s t Hn.
      replace (alive phi g E P n s t) with (alive phi g E' P' n s t).
      + apply (@interval_basis K F C phi g e l D V Hl Hcx Hg HO HV HR E' P' NE NP HP' HE').
      + assert (filter_none : forall (A : Type) (f : A -> bool) (L : list A), (forall x, In x L -> f x = false) -> filter f L = []).
        { intros A f L. induction L as [|a L IH]; intros H; auto. cbn [filter]. rewrite (H a) by now left. apply IH. intros x Hx. apply H. now right. }
        unfold alive, E', P'. rewrite !filter_app.
        rewrite (filter_none _ _ (filter (fun c => (m <? g c)%Z) E0)). 
        2:{ intros c Hc. apply filter_In in Hc. destruct Hc as [_ Hc]. apply Z.ltb_lt in Hc. destruct (Z.eqb_spec (g c) n); [lia|reflexivity]. }
        rewrite (filter_none _ _ (filter (fun p => (m <? g (fst p))%Z) P0)).
        2:{ intros [i j] Hc. apply filter_In in Hc. destruct Hc as [_ Hc]. cbn [fst] in *. apply Z.ltb_lt in Hc. destruct (Z.eqb_spec (g i) n); [lia|reflexivity]. }
        now rewrite !app_nil_r.
  Qed.
End UpTo.
