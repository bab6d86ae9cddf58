(** Lemmas for C87 and C88: the persistent Betti numbers of the Rips complex of a list of points, some of them perhaps repeated,
    are those of the set of these points. *)
From Verif Require Import Base Fields FieldsFacts Spec LinAlg Columns ColumnsFacts Matrices Reduction Rips SpecRips SpecPath RipsCode RipsFacts RipsBasis RipsComplex PropRips RipsCohomology PropRipsCohomology SpecPH Persistence BettiUnique RipsPersistence PropRipsPersistence PropRipsCli BettiMaps BettiFactor BarsUnique RipsSwap PropRipsOrder RipsRepeat Examples.
From Coq Require Import Ring Field Permutation Sorted Lia ListDec.
Set Implicit Arguments.

Section Betti.
  Context {F : ordT} (z : F) (K : coeffT).
  Add Field KFrc : (F_field K).
  Definition rips_data (d : list (list F)) (phi : N_ord -> F) (D : N_ord -> vec K N_ord) (dim : N_ord -> Z) (l : list N_ord) : Prop :=
    rips_filtration z d phi /\ rips_boundary_matrix (length d) D /\ simplex_dim (length d) dim /\ exists k, length d <= k /\ lists_simplices (length d) k l.
  Definition rips_betti (d : list (list F)) (q : Z) (s t : F) (b : nat) : Prop :=
    exists phi D dim l, rips_data d phi D dim l /\ persistent_betti phi dim (-1) l D q s t b.

  Lemma betti_indep_le d phi D dim l phi' D' dim' l' q s t b b' : ole s t -> rips_data d phi D dim l -> rips_data d phi' D' dim' l' ->
    persistent_betti phi dim (-1) l D q s t b -> persistent_betti phi' dim' (-1) l' D' q s t b' -> b <= b'.
  Proof.
    intros Hst (Hphi & HD & Hdim & k & Hk & Hl) (Hphi' & HD' & Hdim' & k' & Hk' & Hl'). set (n := length d) in *.
    assert (In1 : forall c, In c l <-> exists u, simplex n u /\ c = code n u).
    { intros c. split; [intros H; apply Hl in H; destruct H as (u & H1 & _ & H2); eauto|]. intros (u & H1 & H2). apply Hl. exists u. split; auto. split; auto. pose proof (simplex_length H1). lia. }
    assert (In2 : forall c, In c l' <-> exists u, simplex n u /\ c = code n u).
    { intros c. split; [intros H; apply Hl' in H; destruct H as (u & H1 & _ & H2); eauto|]. intros (u & H1 & H2). apply Hl'. exists u. split; auto. split; auto. pose proof (simplex_length H1). lia. }
    assert (HDD : forall c r, In c l -> D c r = D' c r).
    { intros c r Hc. apply In1 in Hc. destruct Hc as (u & Hu & ->). destruct (in_dec N.eq_dec r l) as [Hr|Hr].
      - apply In1 in Hr. destruct Hr as (v & Hv & ->). rewrite (sb_inc HD), (sb_inc HD'); auto.
      - assert (A : D (code n u) r = f0). { destruct (fscalar_dec (D (code n u) r)) as [|Hn]; auto. apply HD in Hn; auto. destruct Hn as (v & i & Hv & _ & ->). exfalso. apply Hr, In1; eauto. }
        assert (B : D' (code n u) r = f0). { destruct (fscalar_dec (D' (code n u) r)) as [|Hn]; auto. apply HD' in Hn; auto. destruct Hn as (v & i & Hv & _ & ->). exfalso. apply Hr, In1; eauto. }
        congruence. }
    assert (Hpp : forall c, In c l -> phi c = phi' c /\ dim c = dim' c).
    { intros c Hc. apply In1 in Hc. destruct Hc as (u & Hu & ->). split; [eapply diameter_unique; [apply (Hphi u Hu)|apply (Hphi' u Hu)]|]. now rewrite Hdim, Hdim'. }
    assert (Hll : forall c, In c l <-> In c l') by (intros c; rewrite In1, In2; tauto).
    assert (Hsupp : forall c r, In c l -> D c r <> f0 -> In r l).
    { intros c r Hc Hn. apply In1 in Hc. destruct Hc as (u & Hu & ->). apply HD in Hn; auto. destruct Hn as (v & i & Hv & _ & ->). apply In1; eauto. }
    assert (Hone : forall L (V : N_ord -> vec K N_ord) c r, NoDup L -> In c L -> lincomb L (ind c) V r = V c r) by (intros L V c r H1 H2; apply (@lincomb_unit K N_ord N_ord L V c r); auto).
    assert (Hid : forall L (w : vec K N_ord) r, NoDup L -> (w r <> f0 -> In r L) -> lincomb L w (fun c => ind c) r = w r).
    { intros L w r Hnd Hw. unfold lincomb, ind. destruct (in_dec N.eq_dec r L) as [Hr|Hr].
      - rewrite (vsum_single _ (a:=r)); auto; [rewrite oeqb_refl; ring|]. intros x _ Hx. assert (E : @oeqb N_ord x r = false) by (now apply oeqb_neq). rewrite E. ring.
      - rewrite vsum_0; [destruct (fscalar_dec (w r)) as [|Hx]; [congruence|exfalso; auto]|].
        intros x Hx. assert (E : @oeqb N_ord x r = false) by (apply oeqb_neq; intros Exr; apply Hr; rewrite <- Exr; exact Hx). rewrite E. ring. }
    apply (@factor_betti K F F N_ord N_ord phi dim l D phi' dim' l' D' (-1)%Z q s t s t ind ind (fun _ _ => f0)); auto.
    - apply Hl.
    - intros c r Hc. rewrite Hone; [|apply Hl'|now apply Hll]. rewrite Hid; [symmetry; now apply HDD|apply Hl|now apply Hsupp].
    - intros c r Hc. apply Hll in Hc. rewrite Hone; [|apply Hl|auto]. rewrite Hid; [now apply HDD|apply Hl'|]. intros Hn. apply Hll. rewrite <- HDD in Hn by auto. eauto.
    - intros c r Hc. rewrite Hone; [|apply Hl'|now apply Hll]. rewrite (@lincomb_0 K N_ord N_ord l (fun _ => f0) D r), (@lincomb_0 K N_ord N_ord l (D c) (fun _ _ => f0) r) by auto. unfold ind. ring.
    - intros c r Hc Hg Hle Hn. apply ind_in in Hn. subst r. destruct (Hpp c Hc) as [<- <-]. split; [now apply Hll|auto].
    - intros c r Hc Hg Hle Hn. apply ind_in in Hn. subst r. apply Hll in Hc. destruct (Hpp c Hc) as [-> ->]. auto.
    - intros c r _ _ _ Hn. congruence.
  Qed.
  Lemma betti_indep d phi D dim l phi' D' dim' l' q s t b b' : ole s t -> rips_data d phi D dim l -> rips_data d phi' D' dim' l' ->
    persistent_betti phi dim (-1) l D q s t b -> persistent_betti phi' dim' (-1) l' D' q s t b' -> b = b'.
  Proof. intros H H1 H2 B1 B2. apply Nat.le_antisymm; [exact (betti_indep_le H H1 H2 B1 B2)|exact (betti_indep_le H H2 H1 B2 B1)]. Qed.
  Lemma rips_betti_unique d q s t b b' : ole s t -> rips_betti d q s t b -> rips_betti d q s t b' -> b = b'.
  Proof. intros H (f & D & g & l & H1 & H2) (f' & D' & g' & l' & H1' & H2'). exact (betti_indep H H1 H1' H2 H2'). Qed.
  Lemma data_exists d : rips_matrix z d -> exists phi D dim l, rips_data d phi D dim l.
  Proof.
    intros Hd. destruct (@spec_exists K F z d Hd) as (H1 & H2 & H3 & H4). exists (some_phi z d), (spec_boundary z d), (spec_dim (length d)), (every z d).
    split; auto. split; auto. split; auto. exists (length d). auto.
  Qed.
  Lemma rips_betti_exists d q s t : rips_matrix z d -> exists b, rips_betti d q s t b.
  Proof.
    intros Hd. set (m := S (Z.to_nat q)).
    destruct (@spec_exists K F z d Hd) as (H1 & H2 & H3 & H4).
    set (uw := (1 + fold_right N.max 0 (every z d))%N).
    assert (Hfit : codes_fit uw (length d) (m + 2)).
    { intros u Hu _. assert (Hin : In (code (length d) u) (every z d)) by (apply every_in; eauto). unfold uw. clear - Hin. induction (every z d) as [|x L IH]; [destruct Hin|]. cbn [fold_right]. destruct Hin as [->|Hin]; [lia|]. specialize (IH Hin). lia. }
    assert (HL : covers_simplices (length d) (m + 2) (every z d)) by (intros u Hu _; apply every_in; eauto).
    destruct (@C54_rips_bars_count list_heaps K F uw z d m Hd ltac:(unfold m; lia) Hfit (every z d) _ HL (Nat.lt_succ_diag_r _)) as (rc & dg & _ & H).
    cbv zeta in H. eexists. exists (some_phi z d), (spec_boundary z d), (spec_dim (length d)), (every z d).
    split; [split; auto; split; auto; split; auto; exists (length d); auto|].
    apply (H _ _ _ (length d + m + 2) _ H1 H2 H3); [lia|apply H4; lia|unfold m; lia|reflexivity].
  Qed.
  Lemma rips_betti_renamed sg d d' q s t b : rips_matrix z d' -> same_points z sg d d' -> rips_betti d q s t b -> rips_betti d' q s t b.
  Proof.
    intros Hd' Hs (phi & D & dim & l & (Hphi & HD & Hdim & k & Hk & Hl) & HB). destruct (@spec_exists K F z d' Hd') as (H1 & _). pose proof (proj1 Hs) as El.
    exists (some_phi z d'), D, dim, l. split.
    - split; auto. rewrite El. split; auto. split; auto. eauto.
    - eapply renamed_betti; eauto.
  Qed.

  (** *** Lists of points *)
  Variable d : list (list F).
  Hypothesis Hd : distance_matrix z d.
  Notation n := (length d).
  Lemma reorder_distance p : (forall a, In a p -> a < n) -> distance_matrix z (reorder z d p).
  Proof.
    intros Hp. destruct Hd as (_ & H2 & H3 & H4). assert (Hb : forall x, x < length p -> nth x p 0 < n) by (intros x Hx; apply Hp, nth_In; auto).
    split; [|rewrite reorder_length; split; [|split]].
    - intros row Hr. rewrite reorder_length. unfold reorder in Hr. apply in_map_iff in Hr. destruct Hr as (x & <- & _). apply map_length.
    - intros i j Hi Hj. rewrite !reorder_dist by auto. auto.
    - intros i Hi. rewrite !reorder_dist by auto. auto.
    - intros i j Hi Hj. rewrite !reorder_dist by auto. auto.
  Qed.
  Lemma reorder_same p p' : Permutation p p' -> exists sg, same_points z sg (reorder z d p') (reorder z d p).
  Proof.
    intros H. apply (Permutation_nth p p' 0) in H. destruct H as (Hl & f & Hf & Hi & He). exists f. split; [rewrite !reorder_length; auto|]. rewrite reorder_length, Hl. split; [|split].
    - intros i Hx. now apply Hf.
    - intros i j Hx Hy. now apply Hi.
    - intros i j Hx Hy. rewrite !reorder_dist by (auto; rewrite Hl; auto). now rewrite !He by auto.
  Qed.
  Lemma repeated (p : list nat) : ~ NoDup p -> exists p' a, Permutation p (p' ++ [a; a]).
  Proof.
    induction p as [|x p IH]; intros H; [exfalso; apply H; constructor|]. destruct (in_dec Nat.eq_dec x p) as [Hin|Hin].
    - apply in_split in Hin. destruct Hin as (u & v & ->). exists (u ++ v), x. rewrite <- Permutation_middle. rewrite (Permutation_app_comm (u ++ v)). reflexivity.
    - destruct IH as (p' & a & Hp); [intros Hn; apply H; now constructor|]. exists (x :: p'), a. cbn [app]. now constructor.
  Qed.
  Theorem cover_betti p q s t b : ole s t -> (forall a, In a p <-> a < n) -> rips_betti (reorder z d p) q s t b <-> rips_betti d q s t b.
  Proof.
    intros Hst. remember (length p) as N eqn:HN. revert p HN b. induction N as [N IH] using lt_wf_ind. intros p HN b Hp.
    assert (Hrp : rips_matrix z (reorder z d p)) by (apply distance_rips, reorder_distance; apply Hp).
    assert (Hrd : rips_matrix z d) by now apply distance_rips.
    assert (Hone : forall b, rips_betti (reorder z d p) q s t b -> rips_betti d q s t b).
    { clear b. intros b Hb. destruct (ListDec.NoDup_dec Nat.eq_dec p) as [Hnd|Hnd].
      - assert (Hlen : length p = n).
        { rewrite <- (seq_length n 0). apply Permutation_length. apply NoDup_Permutation; auto; [apply seq_NoDup|]. intros x. rewrite Hp, in_seq. lia. }
        apply (@rips_betti_renamed (fun x => nth x p 0) (reorder z d p)); auto. split; [now rewrite reorder_length|]. rewrite reorder_length. split; [|split].
        + intros i Hi. rewrite Hlen. apply Hp, nth_In; auto.
        + intros i j Hi Hj E. eapply NoDup_nth; eauto.
        + intros i j Hi Hj. now rewrite reorder_dist.
      - destruct (repeated Hnd) as (p' & a & Hperm).
        assert (Hp2 : forall x, In x (p' ++ [a; a]) <-> x < n) by (intros x; rewrite <- Hp; split; apply Permutation_in; [now symmetry|auto]).
        assert (Hp1 : forall x, In x (p' ++ [a]) <-> x < n) by (intros x; rewrite <- Hp2, !in_app_iff; simpl; tauto).
        assert (Hr2 : rips_matrix z (reorder z d (p' ++ [a; a]))) by (apply distance_rips, reorder_distance; apply Hp2).
        assert (Hr1 : rips_matrix z (reorder z d (p' ++ [a]))) by (apply distance_rips, reorder_distance; apply Hp1).
        destruct (reorder_same (Permutation_sym Hperm)) as (sg & Hsg).
        pose proof (rips_betti_renamed Hr2 Hsg Hb) as Hb2.
        destruct (rips_betti_exists q s t Hr1) as (b1 & Hb1).
        assert (E : b = b1).
        { destruct Hb2 as (phi2 & D2 & dim2 & l2 & (A1 & A2 & A3 & k2 & A4 & A5) & A6). destruct Hb1 as (phi1 & D1 & dim1 & l1 & (B1 & B2 & B3 & k1 & B4 & B5) & B6).
          set (m := length p'). assert (L2 : length (reorder z d (p' ++ [a; a])) = S (S m)) by (rewrite reorder_length, app_length; simpl; lia).
          assert (L1 : length (reorder z d (p' ++ [a])) = S m) by (rewrite reorder_length, app_length; simpl; lia).
          assert (Hdd : forall x y, x < S (S m) -> y < S (S m) -> dist z (reorder z d (p' ++ [a; a])) x y = dist z (reorder z d (p' ++ [a])) (Nat.min x m) (Nat.min y m)).
          { rewrite reorder_length in L1, L2. intros x y Hx Hy. rewrite !reorder_dist by lia.
            assert (Hn : forall x, x < S (S m) -> nth x (p' ++ [a; a]) 0 = nth (Nat.min x m) (p' ++ [a]) 0).
            { intros w Hw. destruct (Nat.lt_ge_cases w m) as [H|H].
              - rewrite Nat.min_l by lia. now rewrite !app_nth1 by auto.
              - rewrite Nat.min_r by lia. rewrite !app_nth2 by (unfold m in *; lia). fold m. rewrite Nat.sub_diag. destruct (w - m) as [|[|w']] eqn:Ew; [reflexivity|reflexivity|lia]. }
            now rewrite !Hn by auto. }
          rewrite L2 in A2, A3, A4, A5. rewrite L1 in B2, B3, B4, B5.
          apply Nat.le_antisymm.
          - eapply (@repeat_le K F z _ _ m L1 L2 Hdd phi1 phi2 D1 D2 dim1 dim2 k1 k2 l1 l2); eauto.
          - eapply (@repeat_ge K F z _ _ m L1 L2 Hdd phi1 phi2 D1 D2 dim1 dim2 k1 k2 l1 l2); eauto. }
        subst b1. apply (IH (length (p' ++ [a]))) with (p := p' ++ [a]); auto.
        rewrite HN, (Permutation_length Hperm), !app_length. simpl. lia. }
    split; [apply Hone|]. intros Hb. destruct (rips_betti_exists q s t Hrp) as (b' & Hb'). rewrite (rips_betti_unique Hst Hb (Hone _ Hb')). exact Hb'.
  Qed.
End Betti.
