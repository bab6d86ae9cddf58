(** Pairs of a matrix and of its anti-transpose. *)
From Verif Require Import Base Fields Spec LinAlg Columns ColumnsFacts Matrices SpecMat MatricesFacts Reduction LoopProofs StandardProofs ReadOffProofs Graded StandardResults.
From Coq Require Import Ring Field Sorted.
Set Implicit Arguments.

(** a pair is certified by a chain [x] and a cochain [y] *)
Definition ydot {K : coeffT} {R : Type} (S : list R) (y v : vec K R) : option K := vsum S (fun r => fmul (y r) (v r)).

Definition cert {K : coeffT} {C R : Type} (B : list C) (S : list R) (ltC : C -> C -> Prop) (ltR : R -> R -> Prop)
    (D : C -> vec K R) (i : R) (j : C) (x : vec K C) (y : vec K R) : Prop :=
  x j <> f0 /\ (forall b, In b B -> ltC j b -> x b = f0) /\
  lincomb B x D i <> f0 /\ (forall r, In r S -> ltR i r -> lincomb B x D r = f0) /\
  y i <> f0 /\ (forall r, In r S -> ltR r i -> y r = f0) /\
  ydot S y (D j) <> f0 /\ (forall c, In c B -> ltC c j -> ydot S y (D c) = f0).

Lemma sorted_exists {R : ordT} {F : ordT} (phi : R -> F) (S : list R) : NoDup S ->
  exists T, StronglySorted (row_lt phi) T /\ forall r, In r T <-> In r S.
Proof.
  induction S as [|a S IH]; intros H; [exists []; split; [constructor|tauto]|]. inversion H; subst.
  destruct IH as (T & HT & Hin); auto. assert (Ha : ~ In a T) by (rewrite Hin; auto). revert HT Ha. 
  assert (G : StronglySorted (row_lt phi) T -> ~ In a T -> exists T', StronglySorted (row_lt phi) T' /\ forall r, In r T' <-> r = a \/ In r T).
  { clear. induction T as [|t T IH]; intros HT Ha.
    - exists [a]. split; [repeat constructor|]. simpl. intuition.
    - inversion HT; subst. destruct (row_lt_total phi a t) as [Hlt|[->|Hlt]].
      + exists (a :: t :: T). split; [|simpl; intuition]. constructor; auto. constructor; auto.
        rewrite Forall_forall in *. intros y Hy. eapply row_lt_trans; eauto.
      + exfalso. apply Ha. simpl; auto.
      + destruct IH as (T' & HT' & Hin); auto; [simpl in Ha; tauto|]. exists (t :: T'). split.
        * constructor; auto. rewrite Forall_forall in *. intros y Hy. apply Hin in Hy. destruct Hy as [->|Hy]; auto.
        * intros r. simpl. rewrite Hin. intuition. }
  intros HT Ha. destruct (G HT Ha) as (T' & HT' & Hin'). exists T'. split; auto. intros r. rewrite Hin', Hin. simpl. intuition.
Qed.

Section Cert.
  Context {K : coeffT} {F C R : ordT} (phi : R -> F).
  Add Field KFD : (F_field K).
  Variables (B : list C) (S : list R) (D : C -> vec K R).
  Hypothesis HB : NoDup B.
  Hypothesis HS : NoDup S.
  Hypothesis Hrows : forall c r, In c B -> D c r <> f0 -> In r S.
  Notation dot := (ydot S).

  Lemma ydot_lincomb (y : vec K R) x : dot y (lincomb B x D) = vsum B (fun b => fmul (x b) (dot y (D b))).
  Proof.
    unfold ydot, lincomb.
    transitivity (vsum S (fun r => vsum B (fun b => fmul (y r) (fmul (x b) (D b r))))).
    - apply vsum_ext. intros r _. now rewrite vsum_mul_l.
    - rewrite vsum_swap. apply vsum_ext. intros b _. rewrite <- vsum_mul_l. apply vsum_ext. intros r _. ring.
  Qed.

  Lemma lincomb_nonzero2 (x : vec K C) r : lincomb B x D r <> f0 -> exists c, In c B /\ x c <> f0 /\ D c r <> f0.
  Proof.
    clear phi. intros H. destruct (Exists_dec (fun c => x c <> f0 /\ D c r <> f0) B) as [He|He].
    - intros c. destruct (fscalar_dec (x c)), (fscalar_dec (D c r)); tauto.
    - apply Exists_exists in He. destruct He as (c & H1 & H2). eauto.
    - exfalso. apply H. apply vsum_0. intros c Hc.
      destruct (fscalar_dec (x c)) as [->|H1]; [ring|]. destruct (fscalar_dec (D c r)) as [->|H2]; [ring|].
      exfalso. apply He. apply Exists_exists. eauto.
  Qed.

  Lemma lincomb_rows x r : lincomb B x D r <> f0 -> In r S.
  Proof. intros H. apply lincomb_nonzero2 in H. destruct H as (c & Hc & _ & Hn). exact (@Hrows c r Hc Hn). Qed.

  Lemma cert_pair i j x y : In j B -> cert B S (before B) (row_lt phi) D i j x y -> is_pair phi B D i j.
  Proof.
    intros Hj (X1 & X2 & L1 & L2 & Y1 & Y2 & M1 & M2).
    assert (Hdot : forall x', ends_at B x' j -> dot y (lincomb B x' D) = fmul (x' j) (dot y (D j))).
    { intros x' (B1 & B2 & E & _ & Hz). rewrite ydot_lincomb. apply (@vsum_single K C B (fun b => fmul (x' b) (dot y (D b))) j); auto.
      intros b Hb Hne. rewrite E in Hb. apply in_app_iff in Hb. destruct Hb as [Hb|[->|Hb]]; [|congruence|].
      - rewrite M2; [ring|rewrite E; apply in_app_iff; auto|]. apply in_split in Hb. destruct Hb as (A & A' & ->).
        exists A, A', B2. now rewrite E, <- app_assoc.
      - rewrite Hz by auto; ring. }
    assert (Hne : forall x', ends_at B x' j -> dot y (lincomb B x' D) <> f0).
    { intros x' Hx'. rewrite Hdot by auto. apply fmul_neq0; auto. destruct Hx' as (_ & _ & _ & H & _). auto. }
    split; [|split].
    - intros x' Hx' Hz. apply (Hne x' Hx'). apply vsum_0. intros r _. rewrite Hz. ring.
    - exists x. split.
      + apply in_split in Hj. destruct Hj as (B1 & B2 & E). exists B1, B2. split; auto. split; auto. intros b Hb. apply X2.
        * rewrite E. apply in_app_iff. simpl; auto.
        * apply before_split. eauto.
      + split; auto. intros r Hr. destruct (fscalar_dec (lincomb B x D r)) as [|Hn]; auto. apply L2; auto. eapply lincomb_rows; eauto.
    - intros x' i' Hx' [H1 H2]. apply row_le_not_lt. intros Hlt. apply (Hne x' Hx'). apply vsum_0. intros r Hr.
      destruct (row_lt_total phi r i) as [H|[->|H]].
      + rewrite Y2 by auto; ring.
      + rewrite H2 by auto; ring.
      + rewrite H2; [ring|]. eapply row_lt_trans; eauto.
  Qed.

  Section FromDecomposition.
    Variable V : C -> vec K C.
    Hypothesis HV : triangular B V.
    Let M : C -> vec K R := fun j => lincomb B (V j) D.
    Hypothesis HR : reduced phi B M.
    Let Hd : dich phi M B.
    Proof. intros j _. apply (@leading_exists K F R phi S). intros r. apply lincomb_rows. Qed.

    Lemma cochain_build i j (T : list R) : StronglySorted (row_lt phi) T -> (forall t, In t T -> row_lt phi i t /\ In t S) -> In i S ->
      exists y, y i = f1 /\ (forall r, y r <> f0 -> r = i \/ In r T) /\
        forall c, In c B -> c <> j -> (forall r, leading phi (M c) r -> In r T) -> dot y (M c) = f0.
    Proof.
      induction T as [|r T IH] using rev_ind; intros HT Hi HiS.
      - exists (fun r => if oeqb i r then f1 else f0). rewrite oeqb_refl. split; auto. split.
        + intros r. destruct (oeqb_spec i r) as [->|]; auto. intros H; now destruct H.
        + intros c Hc _ Hl. destruct (Hd c Hc) as [Hz|(r & Hr)]; [|destruct (Hl r Hr)].
          apply vsum_0. intros r _. rewrite Hz. ring.
      - assert (HT' : StronglySorted (row_lt phi) T /\ forall t, In t T -> row_lt phi t r).
        { clear -HT. induction T as [|a T IH]; simpl in *; [split; [constructor|tauto]|].
          inversion HT; subst. destruct (IH H1) as [H3 H4]. rewrite Forall_forall in H2. split.
          - constructor; auto. apply Forall_forall. intros t Ht. apply H2, in_app_iff; auto.
          - intros t [<-|Ht]; auto. apply H2, in_app_iff; simpl; auto. }
        destruct HT' as [HT' Hlt]. destruct (IH HT') as (y & Y1 & Y2 & Y3); auto.
        { intros t Ht. apply Hi, in_app_iff; auto. }
        destruct (Hi r) as [Hir HrS]; [apply in_app_iff; simpl; auto|].
        assert (Hdec : (exists c, In c B /\ (c <> j /\ leading phi (M c) r)) \/ forall c, In c B -> ~ (c <> j /\ leading phi (M c) r)).
        { apply exists_or. intros c Hc. destruct (ord_eq_dec c j) as [->|Hne]; [right; tauto|].
          destruct (Hd c Hc) as [Hz|(r' & Hr')].
          - right. intros [_ H]. eapply leading_not_zero; eauto.
          - destruct (ord_eq_dec r' r) as [->|Hn]; [auto|]. right. intros [_ H]. apply Hn. eapply leading_unique; eauto. }
        assert (Hold : forall a c, In c B -> c <> j -> (forall r', leading phi (M c) r' -> In r' T) ->
                  dot (fun s => if oeqb r s then a else y s) (M c) = f0).
        { intros a c Hc Hne Hl. rewrite <- (Y3 c Hc Hne Hl). apply vsum_ext. intros s _. destruct (oeqb_spec r s) as [<-|]; auto.
          assert (E : M c r = f0); [|rewrite E; ring]. destruct (Hd c Hc) as [Hz|(r' & Hr')]; auto. apply Hr'. apply Hlt. apply Hl; auto. }
        assert (Hs : forall a, (fun s => if oeqb r s then a else y s) i = f1 /\
                  forall s, (fun s => if oeqb r s then a else y s) s <> f0 -> s = i \/ In s (T ++ [r])).
        { intros a. split.
          - destruct (oeqb_spec r i) as [->|]; auto. exfalso. eapply row_lt_irrefl; eauto.
          - intros s. rewrite in_app_iff. simpl. destruct (oeqb_spec r s) as [<-|]; auto. intros H. apply Y2 in H. tauto. }
        destruct Hdec as [(c & Hc & Hcj & Hlead)|Hno].
        + set (a := fopp (fdiv (vsum S (fun s => if oeqb r s then f0 else fmul (y s) (M c s))) (M c r))).
          exists (fun s => if oeqb r s then a else y s). destruct (Hs a) as [H1 H2]. split; auto. split; auto.
          intros c' Hc' Hne Hl. destruct (ord_eq_dec c' c) as [->|Hcc].
          * unfold ydot.
            transitivity (fadd (fmul a (M c r)) (vsum S (fun s => if oeqb r s then f0 else fmul (y s) (M c s)))).
            -- transitivity (vsum S (fun s => fadd (if oeqb r s then fmul a (M c r) else f0) (if oeqb r s then f0 else fmul (y s) (M c s)))).
               ++ apply vsum_ext. intros s _. destruct (oeqb_spec r s) as [<-|]; ring.
               ++ rewrite vsum_add. f_equal. rewrite (@vsum_single K R S (fun s => if oeqb r s then fmul a (M c r) else f0) r); auto.
                  ** now rewrite oeqb_refl.
                  ** intros s _ Hn. destruct (oeqb_spec r s); congruence.
            -- unfold a. field. apply Hlead.
          * apply Hold; auto. intros r' Hr'. pose proof (Hl r' Hr') as Hin. apply in_app_iff in Hin. destruct Hin as [|[<-|[]]]; auto.
            exfalso. apply Hcc. eapply HR; eauto.
        + exists (fun s => if oeqb r s then f0 else y s). destruct (Hs f0) as [H1 H2]. split; auto. split; auto.
          intros c' Hc' Hne Hl. apply Hold; auto. intros r' Hr'. pose proof (Hl r' Hr') as Hin. apply in_app_iff in Hin.
          destruct Hin as [|[<-|[]]]; auto. exfalso. apply (Hno c' Hc'). auto.
    Qed.

    Lemma pair_cert i j : In j B -> is_pair phi B D i j -> exists x y, cert B S (before B) (row_lt phi) D i j x y.
    Proof.
      intros Hj Hp. pose proof Hp as (_ & (x & Hx & Hlx) & _).
      apply (intrinsic_pair HB HV HR Hd) in Hp; auto. fold (M j) in Hp.
      assert (HiS : In i S) by (eapply lincomb_rows; apply Hlx).
      destruct (sorted_exists phi HS) as (T0 & HT0 & HinT).
      pose (q := fun s : R => @oltb (row_ord phi) i s).
      assert (Hq : forall s, q s = true <-> row_lt phi i s).
      { intros s. unfold q. rewrite row_lt_ord. destruct (@oltb_spec (row_ord phi) i s); split; auto; discriminate. }
      destruct (@cochain_build i j (filter q T0)) as (y & Y1 & Y2 & Y3); auto.
      { clear -HT0. induction HT0 as [|a T HT IH Hf]; simpl; [constructor|]. destruct (q a); auto. constructor; auto.
        rewrite Forall_forall in *. intros t Ht. apply filter_In in Ht. apply Hf. tauto. }
      { intros t Ht. apply filter_In in Ht. destruct Ht as [H1 H2]. split; [now apply Hq|now apply HinT]. }
      assert (Hylt : forall r, row_lt phi r i -> y r = f0).
      { intros r Hr. destruct (fscalar_dec (y r)) as [|Hn]; auto. exfalso. apply Y2 in Hn. destruct Hn as [->|Hn].
        - eapply row_lt_irrefl; eauto.
        - apply filter_In in Hn. destruct Hn as [_ Hn]. apply Hq in Hn. apply (@row_lt_irrefl F R phi r). eapply row_lt_trans; eauto. }
      assert (HyM : forall c, In c B -> c <> j -> dot y (M c) = f0).
      { intros c Hc Hne. destruct (Hd c Hc) as [Hz|(r & Hr)].
        - apply vsum_0. intros s _. rewrite Hz. ring.
        - destruct (row_lt_total phi i r) as [Hlt|[->|Hlt]].
          + apply Y3; auto. intros r' Hr'. rewrite (leading_unique Hr' Hr). apply filter_In. split; [|now apply Hq].
            apply HinT. eapply lincomb_rows. apply Hr.
          + exfalso. apply Hne. eapply HR; eauto.
          + apply vsum_0. intros s _. destruct (row_lt_total phi r s) as [H|[->|H]].
            * destruct Hr as [_ Hr]. rewrite Hr by auto; ring.
            * rewrite Hylt by auto; ring.
            * rewrite Hylt; [ring|]. eapply row_lt_trans; eauto. }
      assert (HyMj : dot y (M j) <> f0).
      { unfold ydot. rewrite (@vsum_single K R S (fun r => fmul (y r) (M j r)) i); auto.
        - rewrite Y1. apply fmul_neq0; [discriminate|apply Hp].
        - intros s _ Hn. destruct (row_lt_total phi i s) as [H|[->|H]]; [|congruence|].
          + destruct Hp as [_ Hp]. rewrite Hp by auto; ring.
          + rewrite Hylt by auto; ring. }
      pose proof Hj as Hsp. apply in_split in Hsp. destruct Hsp as (B1 & B2 & EB).
      assert (HyD : forall P P', B1 = P ++ P' -> forall c, In c P -> dot y (D c) = f0).
      { induction P as [|b P IH] using rev_ind; intros P' E c Hc; [destruct Hc|].
        assert (IH' : forall c, In c P -> dot y (D c) = f0) by (apply (IH ([b] ++ P')); rewrite app_assoc; auto).
        apply in_app_iff in Hc. destruct Hc as [Hc|[<-|[]]]; auto.
        assert (Eb : B = P ++ b :: P' ++ j :: B2) by (rewrite EB, E, <- !app_assoc; reflexivity).
        assert (Hb : In b B) by (rewrite Eb; apply in_app_iff; simpl; auto).
        assert (Hbj : b <> j).
        { intros ->. rewrite Eb in HB. apply NoDup_remove_2 in HB. apply HB. rewrite !in_app_iff. simpl. auto. }
        pose proof (HyM b Hb Hbj) as H0. unfold M in H0. rewrite ydot_lincomb in H0.
        destruct (HV b Hb) as (A1 & A2 & EA & Hbb & Hz).
        assert (A1 = P /\ A2 = P' ++ j :: B2) as [-> ->].
        { rewrite Eb in HB, EA. apply nodup_split_unique in EA; auto. destruct EA; auto. }
        rewrite (@vsum_single K C B (fun k => fmul (V b k) (dot y (D k))) b) in H0; auto.
        - apply fmul_eq0 in H0. destruct H0; [contradiction|auto].
        - intros k Hk Hkb. rewrite Eb in Hk. apply in_app_iff in Hk. destruct Hk as [Hk|[->|Hk]]; [|congruence|].
          + rewrite IH' by auto; ring.
          + rewrite Hz by auto; ring. }
      exists x, y. destruct Hx as (B1' & B2' & E' & Hxj & Hz).
      assert (B1' = B1 /\ B2' = B2) as [-> ->].
      { rewrite EB in HB, E'. apply nodup_split_unique in E'; auto. destruct E'; auto. }
      assert (Hbef : forall c, before B c j -> In c B1).
      { intros c Hc. apply before_split in Hc. destruct Hc as (A & A' & EA & Hin).
        apply in_split in Hin. destruct Hin as (Q1 & Q2 & ->). 
        assert (EA2 : B1 ++ j :: B2 = (A ++ c :: Q1) ++ j :: Q2) by (rewrite <- EB, EA, <- app_assoc; reflexivity).
        rewrite EB in HB. apply nodup_split_unique in EA2; auto. destruct EA2 as [-> _]. apply in_app_iff; simpl; auto. }
      refine (conj Hxj (conj _ (conj (proj1 Hlx) (conj _ (conj _ (conj _ (conj _ _))))))).
      - intros b _ Hb. apply Hz. apply before_split in Hb. destruct Hb as (A & A' & EA & Hin). rewrite EB in HB, EA.
        apply nodup_split_unique in EA; auto. destruct EA as [_ ->]. exact Hin.
      - intros r _. apply Hlx.
      - rewrite Y1. discriminate.
      - intros r _. apply Hylt.
      - intros H0. apply HyMj. unfold M. rewrite ydot_lincomb. apply vsum_0. intros k Hk.
        destruct (HV j Hj) as (A1 & A2 & EA & _ & Hz'). rewrite EB in HB, EA. apply nodup_split_unique in EA; auto. destruct EA as [-> ->].
        rewrite EB in Hk. apply in_app_iff in Hk. destruct Hk as [Hk|[<-|Hk]].
        + rewrite (HyD A1 []); auto; [ring|now rewrite app_nil_r].
        + rewrite H0. ring.
        + rewrite Hz' by auto; ring.
      - intros c _ Hc. apply (HyD B1 []); auto. now rewrite app_nil_r.
    Qed.
  End FromDecomposition.
End Cert.

(** every matrix with finitely many rows has a decomposition *)
Lemma decomposition_exists {K : coeffT} {C F : ordT} (phi : C -> F) (l : list C) (D : C -> vec K C) :
  NoDup l -> (forall c r, In c l -> D c r <> f0 -> In r l) ->
  exists V, triangular l V /\ reduced phi l (fun j => lincomb l (V j) D).
Proof.
  intros Hnd Hrows.
  pose (m := fun c => @Ok (list (K * C)) (flat_map (fun r => match D c r with Some k => [(k, r)] | None => [] end) l)).
  assert (Hm : forall c r, In c l -> mden m c r = D c r).
  { intros c r Hc. unfold mden, m. rewrite coef_flat_map.
    destruct (in_dec ord_eq_dec r l) as [Hr|Hr].
    - rewrite (@vsum_single K C l _ r); auto.
      + destruct (D c r); simpl; auto. rewrite oeqb_refl. apply fadd_0_r.
      + intros s _ Hn. destruct (D c s); simpl; auto. destruct (oeqb_spec s r); congruence.
    - rewrite vsum_0.
      + destruct (fscalar_dec (D c r)) as [|Hn]; auto. exfalso. eauto.
      + intros s Hs. destruct (D c s); simpl; auto. destruct (oeqb_spec s r); congruence. }
  pose (M := @with_filtration K C C F m (fun r => Ok (phi r))).
  pose (b := Basis (length l) (fun i => index l i)).
  assert (Hsq : square_matrix phi M b l).
  { split; auto. split; [split; auto; intros i c H; simpl; unfold index; now rewrite H|]. intros c _.
    exists (flat_map (fun r => match D c r with Some k => [(k, r)] | None => [] end) l). eexists. split; [reflexivity|]. split.
    - apply default_colf_ok with (phi := phi); [reflexivity|]. reflexivity.
    - split; auto. split; [apply tag_wfe|]. intros r. now rewrite tag_terms. }
  destruct (@std_decomposition list_heaps K C F phi M b l Hsq _ (Nat.lt_succ_diag_r _)) as (V & H1 & H2).
  exists V. split; auto. intros j k i Hj Hk L1 L2. apply (H2 j k i Hj Hk).
  - eapply leading_ext; [|exact L1]. intros r. apply lincomb_ext; auto. intros c Hc. symmetry. apply Hm. auto.
  - eapply leading_ext; [|exact L2]. intros r. apply lincomb_ext; auto. intros c Hc. symmetry. apply Hm. auto.
Qed.

(** ** Exchanging rows and columns *)
Section Anti.
  Context {K : coeffT} {F C : ordT} (phi : C -> F).
  Add Field KFA : (F_field K).
  Variables (l : list C) (D : C -> vec K C).
  Hypothesis Hl : NoDup l.

  Lemma rev_basis_in c : In (Reverse c) (rev_basis l) <-> In c l.
  Proof.
    unfold rev_basis. rewrite in_map_iff. split.
    - intros (x & [= ->] & H). now apply in_rev.
    - intros H. exists c. split; auto. now apply in_rev in H.
  Qed.
  Lemma rev_basis_in' (c : reverse C) : In c (rev_basis l) <-> In (unrev c) l.
  Proof. destruct c as [c]. apply rev_basis_in. Qed.
  Lemma before_map {A B} (f : A -> B) (m : list A) x y : (forall a b, f a = f b -> a = b) -> 
    before (map f m) (f x) (f y) <-> before m x y.
  Proof.
    intros Hf. split.
    - intros (A1 & B1 & E1 & E). apply map_eq_app in E. destruct E as (A' & R & -> & EA & E).
      apply map_eq_cons in E. destruct E as (x' & R' & -> & Ex & E). apply map_eq_app in E.
      destruct E as (B' & R'' & -> & EB & E). apply map_eq_cons in E. destruct E as (y' & E' & -> & Ey & _).
      apply Hf in Ex, Ey. subst. exists A', B', E'. reflexivity.
    - intros (A1 & B1 & E1 & ->). exists (map f A1), (map f B1), (map f E1). rewrite map_app. simpl. now rewrite map_app.
  Qed.
  Lemma rev_basis_before x y : before (rev_basis l) (Reverse x) (Reverse y) <-> before l y x.
  Proof. unfold rev_basis. rewrite before_map by congruence. apply before_rev. Qed.
  Lemma rev_basis_nodup : NoDup (rev_basis l).
  Proof. unfold rev_basis. apply FinFun.Injective_map_NoDup; [intros a b [=]; auto|]. now apply NoDup_rev. Qed.
  Lemma vsum_rev_basis (f : reverse C -> option K) : vsum (rev_basis l) f = vsum l (fun c => f (Reverse c)).
  Proof. unfold rev_basis. rewrite vsum_map. apply vsum_perm. symmetry. apply Permutation_rev. Qed.
  Lemma rev_row_lt x y : row_lt (F:=rev_ord F) (R:=rev_ord C) (rev_filtration phi) (Reverse x) (Reverse y) <-> row_lt phi y x.
  Proof.
    unfold row_lt, rev_filtration. simpl. split; (intros [H|[H1 H2]]; [left; exact H|right; split; [congruence|exact H2]]).
  Qed.

  Lemma cert_anti (ltC ltR : C -> C -> Prop) i j (x y : vec K (reverse C)) :
    cert (rev_basis l) (rev_basis l) (fun a b => ltR (unrev b) (unrev a)) (fun a b => ltC (unrev b) (unrev a))
      (anti_transpose D) (Reverse j) (Reverse i) y x <->
    cert l l ltC ltR D i j (fun c => x (Reverse c)) (fun c => y (Reverse c)).
  Proof.
    unfold cert.
    assert (E1 : forall r, lincomb (rev_basis l) y (anti_transpose D) (Reverse r) = ydot l (fun c => y (Reverse c)) (D r)).
    { intros r. unfold lincomb, ydot. now rewrite vsum_rev_basis. }
    assert (E2 : forall c, ydot (rev_basis l) x (anti_transpose D (Reverse c)) = lincomb l (fun c => x (Reverse c)) D c).
    { intros r. unfold lincomb, ydot. now rewrite vsum_rev_basis. }
    rewrite E1, E2.
    assert (Hq : forall (P Q : C -> Prop) , (forall r, In r (rev_basis l) -> P (unrev r) -> Q (unrev r)) <-> (forall r, In r l -> P r -> Q r)).
    { intros P Q. split.
      - intros H r Hr. apply (H (Reverse r)). now apply rev_basis_in.
      - intros H [r] Hr. apply H. now apply rev_basis_in. }
    split.
    - intros (A1 & A2 & A3 & A4 & A5 & A6 & A7 & A8).
      refine (conj A5 (conj _ (conj A7 (conj _ (conj A1 (conj _ (conj A3 _))))))).
      + intros b Hb Hlt. apply (A6 (Reverse b)); auto. now apply rev_basis_in.
      + intros b Hb Hlt. rewrite <- E2. apply (A8 (Reverse b)); auto. now apply rev_basis_in.
      + intros b Hb Hlt. apply (A2 (Reverse b)); auto. now apply rev_basis_in.
      + intros b Hb Hlt. rewrite <- E1. apply (A4 (Reverse b)); auto. now apply rev_basis_in.
    - intros (A5 & A6 & A7 & A8 & A1 & A2 & A3 & A4).
      refine (conj A1 (conj _ (conj A3 (conj _ (conj A5 (conj _ (conj A7 _))))))).
      + intros [b] Hb Hlt. apply rev_basis_in in Hb. auto.
      + intros [b] Hb Hlt. apply rev_basis_in in Hb. rewrite E1. auto.
      + intros [b] Hb Hlt. apply rev_basis_in in Hb. auto.
      + intros [b] Hb Hlt. apply rev_basis_in in Hb. rewrite E2. auto.
  Qed.

  Lemma cert_orders (ltC ltR ltC' ltR' : C -> C -> Prop) i j x y :
    In i l -> In j l ->
    (forall a b, In a l -> In b l -> ltC' a b -> ltC a b) -> (forall a b, In a l -> In b l -> ltR' a b -> ltR a b) ->
    cert l l ltC ltR D i j x y -> cert l l ltC' ltR' D i j x y.
  Proof.
    intros Hi Hj H1 H2 (A1 & A2 & A3 & A4 & A5 & A6 & A7 & A8). refine (conj A1 (conj _ (conj A3 (conj _ (conj A5 (conj _ (conj A7 _))))))); intros b Hb Hlt; [apply A2|apply A4|apply A6|apply A8]; auto.
  Qed.

  Variables (g : C -> Z) (e : Z).
  Hypothesis Hg : graded g e l D.
  Hypothesis HO : graded_order phi g l.
  Hypothesis Hrows : forall c r, In c l -> D c r <> f0 -> In r l.

  Lemma cert_homogeneous (ltC ltR ltC' ltR' : C -> C -> Prop) i j x y :
    In i l -> In j l -> g i = (g j + e)%Z ->
    (forall a b, In a l -> In b l -> g a = g b -> ltC' a b -> ltC a b) ->
    (forall a b, In a l -> In b l -> g a = g b -> ltR' a b -> ltR a b) ->
    cert l l ltC ltR D i j x y -> cert l l ltC' ltR' D i j (restrict g (g j) x) (restrict g (g i) y).
  Proof.
    intros Hi Hj Eg H1 H2 (A1 & A2 & A3 & A4 & A5 & A6 & A7 & A8).
    assert (Ed : forall c, In c l -> ydot l (restrict g (g i) y) (D c) = if (g c =? g j)%Z then ydot l y (D c) else f0).
    { intros c Hc. unfold ydot. destruct (Z.eqb_spec (g c) (g j)) as [E|E].
      - apply vsum_ext. intros r _. unfold restrict. destruct (Z.eqb_spec (g r) (g i)) as [|Hn]; auto.
        destruct (fscalar_dec (D c r)) as [->|H]; [ring|]. exfalso. apply Hn. rewrite (@Hg c r Hc H). lia.
      - apply vsum_0. intros r _. unfold restrict. destruct (Z.eqb_spec (g r) (g i)) as [E'|]; [|ring].
        destruct (fscalar_dec (D c r)) as [->|H]; [ring|]. exfalso. apply E. specialize (@Hg c r Hc H). lia. }
    refine (conj _ (conj _ (conj _ (conj _ (conj _ (conj _ (conj _ _))))))).
    - unfold restrict. now rewrite Z.eqb_refl.
    - intros b Hb Hlt. unfold restrict. destruct (Z.eqb_spec (g b) (g j)); auto.
    - rewrite lincomb_restrict with (e := e) by auto. rewrite Eg, Z.eqb_refl. auto.
    - intros r Hr Hlt. rewrite lincomb_restrict with (e := e) by auto. destruct (Z.eqb_spec (g r) (g j + e)); auto.
      apply A4; auto. apply H2; auto. lia.
    - unfold restrict. now rewrite Z.eqb_refl.
    - intros b Hb Hlt. unfold restrict. destruct (Z.eqb_spec (g b) (g i)); auto.
    - rewrite Ed, Z.eqb_refl by auto. auto.
    - intros c Hc Hlt. rewrite Ed by auto. destruct (Z.eqb_spec (g c) (g j)); auto.
  Qed.

  Notation lr := (rev_basis l).
  Notation Dr := (anti_transpose D : rev_ord C -> vec K (rev_ord C)).
  Notation pr := (rev_filtration phi : rev_ord C -> rev_ord F).

  Lemma anti_rows : forall c r, In c lr -> Dr c r <> f0 -> In r lr \/ ~ In (unrev r) l.
  Proof. intros c [r] Hc Hn. destruct (in_dec ord_eq_dec r l); [left; now apply rev_basis_in|right; auto]. Qed.

  Lemma grade_order_iff a b : In a l -> In b l -> g a = g b -> (before l a b <-> row_lt phi a b).
  Proof.
    intros Ha Hb E. split; [intros H; apply HO; auto|]. intros Hlt. destruct (before_total l a b Ha Hb) as [->|[|H]]; auto.
    - exfalso. eapply row_lt_irrefl; eauto.
    - exfalso. apply (@row_lt_irrefl F C phi a). eapply row_lt_trans; [exact Hlt|]. apply HO; auto.
  Qed.
End Anti.

(** the anti-transpose of [D] restricted to the rows in [l] *)
Section Dual.
  Context {K : coeffT} {F C : ordT} (phi : C -> F).
  Variables (l : list C) (D : C -> vec K C) (D' : rev_ord C -> vec K (rev_ord C)).
  Hypothesis Hl : NoDup l.
  Hypothesis Hrows : forall c r, In c l -> D c r <> f0 -> In r l.
  Hypothesis Hrows' : forall c r, In c (rev_basis l) -> D' c r <> f0 -> In r (rev_basis l).
  Hypothesis Heq : forall c r, In c l -> In r l -> D' (Reverse r) (Reverse c) = D c r.
  Variables (g : C -> Z) (e : Z).
  Hypothesis Hg : graded g e l D.
  Hypothesis HO : graded_order phi g l.

  Notation lr := (rev_basis l : list (rev_ord C)).
  Notation pr := (rev_filtration phi : rev_ord C -> rev_ord F).

  Lemma dual_graded : graded (fun c : rev_ord C => g (unrev c)) (- e) lr D'.
  Proof.
    intros [c] [r] Hc Hn. pose proof (@Hrows' _ _ Hc Hn) as Hr. apply (rev_basis_in l) in Hc, Hr. simpl.
    rewrite (@Heq r c Hr Hc) in Hn. specialize (@Hg r c Hr Hn). lia.
  Qed.
  Lemma dual_fin (x : vec K (rev_ord C)) : vzero (lincomb lr x D') \/ exists i, leading pr (lincomb lr x D') i.
  Proof.
    apply (@leading_exists K (rev_ord F) (rev_ord C) pr lr). intros r H.
    exact (@lincomb_rows K (rev_ord C) (rev_ord C) lr lr D' Hrows' x r H).
  Qed.
  Lemma primal_fin (x : vec K C) : vzero (lincomb l x D) \/ exists i, leading phi (lincomb l x D) i.
  Proof. apply (@leading_exists K F C phi l). intros r H. eapply lincomb_rows; [exact Hrows|exact H]. Qed.

  Lemma vsum_rb (f : rev_ord C -> option K) : @vsum K (rev_ord C) lr f = vsum l (fun c => f (Reverse c)).
  Proof. exact (@vsum_rev_basis K C l f). Qed.

  Lemma cert_dual (ltC ltR : rev_ord C -> rev_ord C -> Prop) i j x y : In i lr -> In j lr ->
    cert lr lr ltC ltR (anti_transpose D) i j x y <-> cert lr lr ltC ltR D' i j x y.
  Proof.
    intros Hi Hj.
    assert (E : forall r c, In r l -> In c l -> anti_transpose D (Reverse r) (Reverse c) = D' (Reverse r) (Reverse c)).
    { intros r c Hr Hc. unfold anti_transpose. simpl. rewrite Heq; auto. }
    assert (E1 : forall r, In r lr -> lincomb lr x (anti_transpose D) r = lincomb lr x D' r).
    { intros [r] Hr. apply (rev_basis_in l) in Hr. unfold lincomb. rewrite !vsum_rb. apply vsum_ext. intros c Hc. now rewrite E. }
    assert (E2 : forall c, In c lr -> ydot lr y (anti_transpose D c) = ydot lr y (D' c)).
    { intros [c] Hc. apply (rev_basis_in l) in Hc. unfold ydot. rewrite !vsum_rb. apply vsum_ext. intros r Hr. now rewrite E. }
    unfold cert. rewrite E1, E2 by auto. split; intros (A1 & A2 & A3 & A4 & A5 & A6 & A7 & A8);
    (refine (conj A1 (conj A2 (conj A3 (conj _ (conj A5 (conj A6 (conj A7 _)))))))); intros; 
    first [rewrite <- E1 by auto | rewrite E1 by auto | rewrite <- E2 by auto | rewrite E2 by auto]; auto.
  Qed.

  Theorem pair_dual i j : In i l -> In j l ->
    (is_pair phi l D i j <-> is_pair pr lr D' (Reverse j : rev_ord C) (Reverse i : rev_ord C)).
  Proof.
    intros Hi Hj. pose proof (proj2 (rev_basis_in l i) Hi) as Hi'. pose proof (proj2 (rev_basis_in l j) Hj) as Hj'.
    assert (GO : forall a b, In a l -> In b l -> g a = g b -> (before l a b <-> row_lt phi a b)) by (apply grade_order_iff; auto).
    split; intros Hp.
    - pose proof (@pair_grade K F C phi l D primal_fin g e Hg i j Hp) as Eg.
      destruct (@decomposition_exists K C F phi l D Hl Hrows) as (V & HV & HR).
      destruct (@pair_cert K F C C phi l l D Hl Hl Hrows V HV HR i j Hj Hp) as (x & y & Hc).
      assert (Hc2 : cert l l (row_lt phi) (before l) D i j (restrict g (g j) x) (restrict g (g i) y)).
      { revert Hc. apply cert_homogeneous with (e := e); auto; intros a b Ha Hb E; apply GO; auto. }
      apply (@cert_pair K (rev_ord F) (rev_ord C) (rev_ord C) pr lr lr D' (rev_basis_nodup Hl) Hrows'
        (Reverse j) (Reverse i) (fun c => restrict g (g i) y (unrev c)) (fun c => restrict g (g j) x (unrev c))); auto.
      apply cert_dual; auto.
      assert (Hc3 : cert lr lr (fun a b : reverse C => before l (unrev b) (unrev a)) (fun a b => row_lt phi (unrev b) (unrev a))
          (anti_transpose D) (Reverse j) (Reverse i) (fun c => restrict g (g i) y (unrev c)) (fun c => restrict g (g j) x (unrev c))).
      { apply cert_anti. exact Hc2. }
      revert Hc3. apply (@cert_orders K (rev_ord C)); auto; intros [a] [b] _ _; [apply rev_basis_before|apply (rev_row_lt phi a b)].
    - pose proof (@pair_grade K (rev_ord F) (rev_ord C) pr lr D' dual_fin _ _ dual_graded _ _ Hp) as Eg. simpl in Eg.
      destruct (@decomposition_exists K (rev_ord C) (rev_ord F) pr lr D' (rev_basis_nodup Hl) Hrows') as (V & HV & HR).
      destruct (@pair_cert K (rev_ord F) (rev_ord C) (rev_ord C) pr lr lr D' (rev_basis_nodup Hl) (rev_basis_nodup Hl)
        Hrows' V HV HR (Reverse j) (Reverse i) Hi' Hp) as (x & y & Hc).
      apply cert_dual in Hc; auto.
      assert (Hc2 : cert lr lr (fun a b : reverse C => before l (unrev b) (unrev a)) (fun a b => row_lt phi (unrev b) (unrev a))
          (anti_transpose D) (Reverse j) (Reverse i) x y).
      { revert Hc. apply (@cert_orders K (rev_ord C)); auto; intros [a] [b] _ _; [apply rev_basis_before|apply (rev_row_lt phi a b)]. }
      apply (cert_anti l D (row_lt phi) (before l)) in Hc2.
      refine (@cert_pair K F C C phi l l D Hl Hrows i j _ _ Hj (@cert_homogeneous K C l D g e Hg _ _ (before l) (row_lt phi) i j _ _ Hi Hj _ _ _ Hc2));
        [lia| |]; intros a b Ha Hb E; apply GO; auto.
  Qed.
End Dual.


Section DualEss.
  Context {K : coeffT} {F C : ordT} (phi : C -> F).
  Variables (l : list C) (D : C -> vec K C) (D' : rev_ord C -> vec K (rev_ord C)).
  Hypothesis Hl : NoDup l.
  Hypothesis Hrows : forall c r, In c l -> D c r <> f0 -> In r l.
  Hypothesis Hrows' : forall c r, In c (rev_basis l) -> D' c r <> f0 -> In r (rev_basis l).
  Hypothesis Heq : forall c r, In c l -> In r l -> D' (Reverse r) (Reverse c) = D c r.
  Variables (g : C -> Z) (e : Z).
  Hypothesis Hg : graded g e l D.
  Hypothesis HO : graded_order phi g l.
  Notation lr := (rev_basis l : list (rev_ord C)).
  Notation pr := (rev_filtration phi : rev_ord C -> rev_ord F).

  Lemma pair_rows_in i j : is_pair phi l D i j -> In i l.
  Proof. intros (_ & (x & _ & H & _) & _). eapply lincomb_rows; [exact Hrows|exact H]. Qed.
  Lemma ess_iff c : is_essential phi l D c <-> In c l /\ (forall k, In k l -> ~ is_pair phi l D k c) /\ (forall k, In k l -> ~ is_pair phi l D c k).
  Proof.
    destruct (@decomposition_exists K C F phi l D Hl Hrows) as (V & HV & HR). unfold is_essential. split.
    - intros (H1 & H2 & H3). split; auto. split; auto. intros k _. eapply positive_not_death; eauto.
    - intros (H1 & H2 & H3). split; auto. split; auto.
      destruct (@positive_or_death K F C phi l D V Hl HV HR (@primal_fin K F C phi l D Hrows) c H1) as [|(i & Hi)]; auto.
      exfalso. apply (H2 i); auto. eapply pair_rows_in; eauto.
  Qed.
End DualEss.

Theorem essential_dual {K : coeffT} {F C : ordT} (phi : C -> F) (l : list C) (D : C -> vec K C) (D' : rev_ord C -> vec K (rev_ord C))
  (g : C -> Z) (e : Z) :
  NoDup l -> (forall c r, In c l -> D c r <> f0 -> In r l) ->
  (forall c r, In c (rev_basis l) -> D' c r <> f0 -> In r (rev_basis l)) ->
  (forall c r, In c l -> In r l -> D' (Reverse r) (Reverse c) = D c r) ->
  graded g e l D -> graded_order phi g l ->
  forall c, is_essential phi l D c <->
    is_essential (rev_filtration phi : rev_ord C -> rev_ord F) (rev_basis l : list (rev_ord C)) D' (Reverse c : rev_ord C).
Proof.
  intros Hl Hrows Hrows' Heq Hg HO c. rewrite ess_iff by auto.
  rewrite (@ess_iff K (rev_ord F) (rev_ord C) (rev_filtration phi) (rev_basis l) D' (rev_basis_nodup Hl) Hrows').
  assert (P := @pair_dual K F C phi l D D' Hl Hrows Hrows' Heq g e Hg HO). split.
  - intros (H1 & H2 & H3). split; [now apply (rev_basis_in l)|]. split.
    + intros [k] Hk Hp. apply (rev_basis_in l) in Hk. apply (H3 k Hk). apply P; auto.
    + intros [k] Hk Hp. apply (rev_basis_in l) in Hk. apply (H2 k Hk). apply P; auto.
  - intros (H1 & H2 & H3). apply (rev_basis_in l) in H1. split; auto. split.
    + intros k Hk Hp. apply (H3 (Reverse k)); [now apply (rev_basis_in l)|]. apply P; auto.
    + intros k Hk Hp. apply (H2 (Reverse k)); [now apply (rev_basis_in l)|]. apply P; auto.
Qed.

(** ** A pair depends only on the columns of one grade *)
Section Local.
  Context {K : coeffT} {F C : ordT} (phi : C -> F).
  Add Field KFL : (F_field K).
  Variables (D : C -> vec K C) (g : C -> Z) (e : Z).

  Lemma ends_at_filter B n (x : vec K C) j : NoDup B -> g j = n ->
    ends_at B x j -> ends_at (filter (fun c => (g c =? n)%Z) B) (restrict g n x) j.
  Proof.
    intros HB Ej (B1 & B2 & -> & Hj & Hz). rewrite filter_app. simpl. rewrite Ej, Z.eqb_refl.
    eexists _, _. split; [reflexivity|]. split; [unfold restrict; now rewrite Ej, Z.eqb_refl|].
    intros b Hb. apply filter_In in Hb. unfold restrict. destruct (g b =? n)%Z; auto. apply Hz. tauto.
  Qed.
  Lemma ends_at_unfilter B n (x : vec K C) j :
    ends_at (filter (fun c => (g c =? n)%Z) B) x j -> In j B -> NoDup B -> ends_at B (restrict g n x) j.
  Proof.
    intros (B1 & B2 & E & Hj & Hz) HjB HB. assert (Ej : g j = n).
    { assert (In j (filter (fun c => (g c =? n)%Z) B)) by (rewrite E; apply in_app_iff; simpl; auto).
      apply filter_In in H. apply Z.eqb_eq. tauto. }
    apply in_split in HjB. destruct HjB as (A1 & A2 & EB). exists A1, A2. split; auto. split; [unfold restrict; now rewrite Ej, Z.eqb_refl|].
    intros b Hb. unfold restrict. destruct (Z.eqb_spec (g b) n) as [Eb|]; auto.
    rewrite EB, filter_app in E. simpl in E. rewrite Ej, Z.eqb_refl in E.
    pose proof HB as HB'. rewrite EB in HB'.
    assert (HF : NoDup (filter (fun c => (g c =? n)%Z) A1 ++ j :: filter (fun c => (g c =? n)%Z) A2)).
    { pose proof (NoDup_filter (fun c => (g c =? n)%Z) HB') as H. rewrite filter_app in H. simpl in H. rewrite Ej, Z.eqb_refl in H. exact H. }
    apply nodup_split_unique in E; auto. destruct E as [_ <-]. apply Hz. apply filter_In. split; auto. apply Z.eqb_eq. auto.
  Qed.
  Lemma lincomb_filter B n (x : vec K C) r : (forall c, In c B -> x c <> f0 -> g c = n) ->
    lincomb (filter (fun c => (g c =? n)%Z) B) x D r = lincomb B x D r.
  Proof.
    intros H. unfold lincomb. rewrite vsum_filter. apply vsum_ext. intros c Hc.
    destruct (Z.eqb_spec (g c) n); auto. destruct (fscalar_dec (x c)) as [->|Hn]; [ring|]. exfalso. auto.
  Qed.
  Lemma restrict_supp n (x : vec K C) c : restrict g n x c <> f0 -> g c = n.
  Proof. unfold restrict. destruct (Z.eqb_spec (g c) n); auto. intros H; now destruct H. Qed.

  Lemma pair_filter B i j : NoDup B -> graded g e B D ->
    (forall x, vzero (lincomb B x D) \/ exists i, leading phi (lincomb B x D) i) ->
    In j B -> (is_pair phi B D i j <-> is_pair phi (filter (fun c => (g c =? g j)%Z) B) D i j).
  Proof.
    intros HB Hg Hfin Hj. set (Bf := filter (fun c => (g c =? g j)%Z) B).
    assert (HBf : NoDup Bf) by (apply NoDup_filter; auto).
    assert (L : forall x r, lincomb Bf x D r = lincomb B (restrict g (g j) x) D r).
    { intros x r. rewrite <- (@lincomb_filter B (g j)) by (intros c _; apply restrict_supp).
      apply lincomb_ext; auto. intros c Hc. apply filter_In in Hc. destruct Hc as [_ Hc]. unfold restrict. now rewrite Hc. }
    assert (Up : forall x, ends_at Bf x j -> ends_at B (restrict g (g j) x) j) by (intros x Hx; apply ends_at_unfilter; auto).
    assert (Dn : forall x, ends_at B x j -> ends_at Bf (restrict g (g j) x) j) by (intros x Hx; apply ends_at_filter; auto).
    assert (L' : forall x r, lincomb Bf (restrict g (g j) x) D r = lincomb B (restrict g (g j) x) D r).
    { intros x r. apply lincomb_filter. intros c _. apply restrict_supp. }
    split; intros (P1 & (x & Hx & Hl) & P3).
    - assert (Eg : g i = (g j + e)%Z) by (apply (pair_grade Hfin Hg); split; eauto).
      split; [|split].
      + intros y Hy Hz. apply (P1 _ (Up y Hy)). intros r. rewrite <- L. auto.
      + exists (restrict g (g j) x). split; auto. split.
        * rewrite L', lincomb_restrict with (e := e), Eg, Z.eqb_refl by auto. apply Hl.
        * intros r Hr. rewrite L', lincomb_restrict with (e := e) by auto. destruct (g r =? g j + e)%Z; auto. apply Hl; auto.
      + intros y i' Hy Hly. apply (P3 _ i' (Up y Hy)). eapply leading_ext; [|exact Hly]. intros r. apply L.
    - split; [|split].
      + intros y Hy Hz. apply (P1 _ (Dn y Hy)). intros r. rewrite L', lincomb_restrict with (e := e) by auto.
        destruct (g r =? g j + e)%Z; auto.
      + exists (restrict g (g j) x). split; auto. eapply leading_ext; [|exact Hl]. intros r. apply L.
      + intros y i' Hy Hly. destruct (Hfin (restrict g (g j) y)) as [Hz|(i2 & Hl2)].
        * exfalso. apply (P1 _ (Dn y Hy)). intros r. rewrite L'. auto.
        * assert (H2 : row_le phi i i2).
          { apply (P3 _ i2 (Dn y Hy)). eapply leading_ext; [|exact Hl2]. intros r. symmetry. apply L'. }
          eapply row_le_trans; [exact H2|]. apply row_le_not_lt. intros Hlt. destruct Hl2 as [Hn _]. apply Hn.
          rewrite lincomb_restrict with (e := e) by auto. destruct (g i2 =? g j + e)%Z; auto. apply Hly; auto.
  Qed.

  (** two bases that agree in the grade of [j] give the same pairs for [j] *)
  Lemma pair_local B B' i j : NoDup B -> NoDup B' -> graded g e B D -> graded g e B' D ->
    (forall x, vzero (lincomb B x D) \/ exists i, leading phi (lincomb B x D) i) ->
    (forall x, vzero (lincomb B' x D) \/ exists i, leading phi (lincomb B' x D) i) ->
    In j B -> In j B' -> filter (fun c => (g c =? g j)%Z) B = filter (fun c => (g c =? g j)%Z) B' ->
    (is_pair phi B D i j <-> is_pair phi B' D i j).
  Proof. intros. rewrite pair_filter by auto. rewrite (@pair_filter B') by auto. now rewrite H7. Qed.
End Local.
