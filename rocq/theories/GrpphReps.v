(** The representatives of the bars of dimension 1 form a basis of persistent path homology. *)
From Verif Require Import Base Fields FieldsFacts Spec LinAlg Columns ColumnsFacts Matrices SpecMat MatricesFacts Reduction Graded StandardResults Duality GrpphCells Grpph SpecGrpph SpecPath SpecPH GrpphFacts GrpphColumns GrpphComplex GrpphReduce GrpphInvolution GrpphList GrpphRun Persistence RipsPersistence BettiUnique PathBasis RepBasis PathBetti.
From Coq Require Import Ring Field Ring_theory Permutation Lia.
Set Implicit Arguments.

Lemma combine_fun {A B} (l1 : list A) (l2 : list B) a b b' : NoDup l1 -> In (a, b) (combine l1 l2) -> In (a, b') (combine l1 l2) -> b = b'.
Proof.
  revert l2. induction l1 as [|x l1 IH]; intros l2 HN H H'; [destruct H|]. destruct l2 as [|y l2]; [destruct H|]. apply NoDup_cons_iff in HN. destruct HN as [Hx HN].
  destruct H as [H|H], H' as [H'|H'].
  - congruence.
  - injection H as -> ->. apply in_combine_l in H'. contradiction.
  - injection H' as -> ->. apply in_combine_l in H. contradiction.
  - eapply IH; eauto.
Qed.
Lemma combine_maps {A B C} (f : A -> B) (h : A -> C) L : combine (map f L) (map h L) = map (fun a => (f a, h a)) L.
Proof. induction L as [|a L IH]; cbn; congruence. Qed.
Lemma combine_map_l {A B C} (f : A -> B) (l1 : list A) (l2 : list C) : combine (map f l1) l2 = map (fun q => (f (fst q), snd q)) (combine l1 l2).
Proof. revert l2. induction l1 as [|a l1 IH]; intros [|y l2]; cbn; congruence. Qed.
Lemma filter_map {A B} (p : B -> bool) (f : A -> B) L : filter p (map f L) = map f (filter (fun a => p (f a)) L).
Proof. induction L as [|a L IH]; cbn; auto. destruct (p (f a)); cbn; congruence. Qed.
Lemma filter_filter {A} (p q : A -> bool) L : filter p (filter q L) = filter (fun a => q a && p a) L.
Proof. induction L as [|a L IH]; cbn; auto. destruct (q a); cbn; [destruct (p a)|]; congruence. Qed.
Lemma filter_combine {A B} (p : A -> bool) (l1 : list A) (l2 : list B) : length l1 = length l2 -> map fst (filter (fun q => p (fst q)) (combine l1 l2)) = filter p l1.
Proof.
  revert l2. induction l1 as [|a l1 IH]; intros [|y l2] H; cbn in *; auto; try discriminate. injection H as H. destruct (p a); cbn; rewrite IH by auto; reflexivity.
Qed.
Lemma Forall2_combine {A B} (Q : A -> B -> Prop) (l1 : list A) (l2 : list B) : Forall2 Q l1 l2 -> length l1 = length l2 /\ forall a b, In (a, b) (combine l1 l2) -> Q a b.
Proof.
  induction 1 as [|a b l1 l2 H HF [IH1 IH2]]; cbn; [split; auto; intros ? ? []|]. split; [auto|]. intros a' b' [[= <- <-]|Hin]; auto.
Qed.

Section Reps.
  Context {K : coeffT} {F : ordT}.
  Add Field KFReps : (F_field K).
  Variables (time : nat -> nat -> option F) (n : nat) (z inf : F) (E : list (nat * nat)).
  Hypothesis HG : filtered_digraph time n z inf.
  Hypothesis HE : forall s t, In (s, t) E -> s < n /\ t < n.
  Variables (phi : cell -> F) (l : list cell).
  Hypothesis HL : cell_listing time n z E phi l.
  Notation lC := (l : list cell_ord).
  Notation phiC := (phi : cell_ord -> F).
  Notation bd := (cell_boundary (K:=K) : cell_ord -> vec K cell_ord).
  Notation g := (fun c : cell_ord => Z.of_nat (cell_dimension c)).
  Notation vecC := (vec K cell_ord).

  Lemma edge_sum_ve rep c : edge_sum (K:=K) rep c = ve (edges_sum (K:=K) rep) c.
  Proof. destruct c; reflexivity. Qed.
  Lemma basis_perm (L L' : list cell_ord) (Z : cell_ord -> vecC) d s t : Permutation L L' -> persistent_basis phiC g (-1) lC bd d s t L Z -> persistent_basis phiC g (-1) lC bd d s t L' Z.
  Proof.
    intros Hp (H1 & H2 & H3 & H4). assert (Hs : forall a r, lincomb L a Z r = lincomb L' a Z r) by (intros a r; unfold lincomb; now apply vsum_perm).
    split; [eapply Permutation_NoDup; eauto|]. split; [|split].
    - intros b Hb. apply H2. eapply Permutation_in; [apply Permutation_sym|]; eauto.
    - intros u Hu. destruct (H3 u Hu) as (a & Ha). exists a. eapply boundary_at_ext; [|exact Ha]. intros c. cbv beta. now rewrite Hs.
    - intros a Ha b Hb. apply H4; [|eapply Permutation_in; [apply Permutation_sym|]; eauto]. eapply boundary_at_ext; [|exact Ha]. intros c. now rewrite Hs.
  Qed.

  Definition zz (Z : cell_ord -> vecC) (c : cell_ord) : edge_chain (K:=K) := fun x y => Z c (Edge x y).
  Lemma coefs_of (L : list cell_ord) (w : list (option K)) : NoDup L -> length w = length L -> exists a : vecC, map a L = w.
  Proof.
    revert w. induction L as [|c L IH]; intros [|k w] HN HW; try discriminate; [exists (fun _ => f0); reflexivity|]. apply NoDup_cons_iff in HN. destruct HN as [Hc HN]. injection HW as HW.
    destruct (IH w HN HW) as (a & Ha). exists (fun b => if ord_eq_dec b c then k else a b). cbn [map]. destruct (ord_eq_dec c c); [|congruence]. f_equal. rewrite <- Ha.
    apply map_ext_in. intros b Hb. destruct (ord_eq_dec b c) as [->|]; [contradiction|reflexivity].
  Qed.
  Lemma basis_list (L : list cell_ord) (Z : cell_ord -> vecC) s t : persistent_basis phiC g (-1) lC bd 1 s t L Z -> image_basis_1 time n z E s t (map (zz Z) L).
  Proof.
    intros (N & H1 & H2 & H3).
    assert (HZ : forall a c, lincomb L a Z c = ve (combination (map a L) (map (zz Z) L)) c).
    { intros a c. transitivity (ve (fun x y => vsum L (fun b => fmul (a b) (zz Z b x y))) c).
      - rewrite <- ve_comb. apply lincomb_ext; auto. intros b Hb. apply (chain_edges (proj1 (H1 b Hb))).
      - apply ve_ext. intros x y. unfold combination. rewrite combine_maps, vsum_map. reflexivity. }
    split; [|split].
    - intros e He. apply in_map_iff in He. destruct He as (b & <- & Hb). apply (cycle_1_ok HG HE HL). eapply cycle_at_ext; [|exact (H1 b Hb)]. apply (chain_edges (proj1 (H1 b Hb))).
    - intros e He. apply (cycle_1_ok HG HE HL) in He. destruct (H2 _ He) as (a & Ha). exists (map a L). split; [now rewrite !map_length|].
      apply (boundary_1_ok HG HL). eapply boundary_at_ext; [|exact Ha]. intros c. cbv beta. rewrite HZ. destruct c; reflexivity.
    - intros w Hw Hb k Hk. rewrite map_length in Hw. destruct (@coefs_of L w N Hw) as (a & <-). apply in_map_iff in Hk. destruct Hk as (b & <- & Hin).
      apply (H3 a); auto. apply (boundary_1_ok HG HL) in Hb. eapply boundary_at_ext; [|exact Hb]. intros c. symmetry. apply HZ.
  Qed.

  Variables (P P1 : list (cell * cell)) (Es : list cell) (reps : list (list (nat * nat))).
  Hypothesis NP : NoDup P.
  Hypothesis NE : NoDup Es.
  Hypothesis NP1 : NoDup P1.
  Hypothesis HP : forall i j, In (i, j) P <-> In j l /\ is_pair phiC lC bd i j.
  Hypothesis HEs : forall c, In c Es <-> cell_dimension c <= 1 /\ is_essential phiC lC bd c.
  Hypothesis HP1 : forall i j, In (i, j) P1 <-> In j l /\ is_pair phiC lC bd i j /\ cell_dimension i = 1 /\ phi i <> phi j.
  Hypothesis HF2 : Forall2 (fun (p : cell * cell) rep => represents (K:=K) phi l (fst p) (snd p) rep) P1 reps.

  Lemma rep_cycle i j rep : represents (K:=K) phi l i j rep -> cell_dimension i = 1 -> leading phiC (ve (edges_sum (K:=K) rep)) (i : cell_ord) /\ cycle_at phiC g lC bd (g i) (phi i) (ve (edges_sum (K:=K) rep)).
  Proof.
    intros (HN & Hin & Hcyc & Hlead & _ & _) Hd. assert (Hlead' : leading phiC (ve (edges_sum (K:=K) rep)) (i : cell_ord)) by (eapply leading_ext; [|exact Hlead]; intros c; apply edge_sum_ve).
    split; auto. split.
    - intros c Hc. destruct c as [v|x y|X]; try (cbn [ve] in Hc; congruence).
      assert (Hr : In (x, y) rep).
      { cbn [ve] in Hc. unfold edges_sum in Hc.
        assert (H : exists e, In e rep /\ (delta ((fst e =? x) && (snd e =? y)) : option K) <> f0).
        { clear -Hc. induction rep as [|e rep IH]; cbn [vsum] in Hc; [congruence|]. destruct (fscalar_dec (delta ((fst e =? x) && (snd e =? y)) : option K)) as [E0|Hn].
          - destruct IH as (e' & H1 & H2); [intros H; apply Hc; rewrite H, E0; ring|]. exists e'. split; auto. now right.
          - exists e. split; auto. now left. }
        destruct H as ([x' y'] & H1 & H2). cbn [fst snd] in H2. destruct (Nat.eqb_spec x' x), (Nat.eqb_spec y' y); cbn [andb delta] in H2; try congruence. }
      split; [now apply Hin|]. split; [rewrite Hd; reflexivity|]. apply ole_not_lt. intros Hlt. apply Hc. apply (proj2 Hlead'). left. exact Hlt.
    - intros r. rewrite <- (Hcyc r). unfold bdry, lincomb. apply vsum_ext. intros b _. f_equal.
  Qed.
  Lemma rep_bounds i j rep : represents (K:=K) phi l i j rep -> boundary_1 (K:=K) time n (phi j) (edges_sum rep) /\ forall t, olt t (phi j) -> ~ boundary_1 (K:=K) time n t (edges_sum rep).
  Proof.
    intros (_ & _ & _ & _ & (x & Hx & Ex) & Hno). split.
    - apply (boundary_1_ok HG HL). exists x. split.
      + intros c Hc. destruct (Hx c Hc) as (H1 & H2 & H3). split; auto. split; [rewrite H2; reflexivity|].
        destruct H3 as [[H3|[H3 _]]| ->]; [apply olt_le; exact H3|rewrite H3; apply ole_refl|apply ole_refl].
      + intros r. rewrite <- edge_sum_ve. apply Ex.
    - intros t Ht Hb. apply (boundary_1_ok HG HL) in Hb. destruct Hb as (w & Hw & Ew). apply Hno. exists w. split.
      + intros c Hc. destruct (Hw c Hc) as (H1 & H2 & H3). split; auto. split; [revert H2; generalize (cell_dimension c); intros; lia|]. left. eapply ole_lt_trans; eauto.
      + intros r. rewrite edge_sum_ve. apply Ew.
  Qed.
  Lemma rep_bar i j rep : cell_dimension i = 1 -> represents (K:=K) phi l i j rep -> bar_representative time n z E (K:=K) (phi i, phi j) rep.
  Proof.
    intros Hd Hr. destruct (rep_bounds Hr) as [H1 H2]. split; [apply Hr|]. cbn [fst snd]. split; [|split; auto].
    apply (cycle_1_ok HG HE HL). destruct (rep_cycle Hr Hd) as [_ H]. rewrite Hd in H. exact H.
  Qed.

  Lemma reps_basis : exists cs : list (edge_chain (K:=K)),
    Forall2 (fun b c => cycle_1 time n z E b c) (map phi (filter (fun c => cell_dimension c =? 1) Es)) cs /\
    forall s t, ole s t -> image_basis_1 time n z E s t
      (chains_alive s t (combine (map phi (filter (fun c => cell_dimension c =? 1) Es)) cs) (combine (map (fun p : cell * cell => (phi (fst p), phi (snd p))) P1) reps)).
  Proof.
    pose proof HL as (Hl & Hin & Hphi & HO). pose proof (@inv_complex K F time n z inf E HG HE phi l HL) as Hcx. pose proof (@bd_graded K l) as Hg.
    destruct (decomposition_exists phiC bd Hl) as (V & HV & HR); [apply Hcx|].
    destruct (@essential_list K F cell_ord phi l bd V Hl Hcx HV HR) as (E0 & M0 & HE0).
    set (E' := (Es : list cell_ord) ++ filter (fun c : cell_ord => 1 <? cell_dimension c) E0).
    assert (HE' : forall c : cell_ord, In c E' <-> is_essential phiC lC bd c).
    { intros c. unfold E'. rewrite in_app_iff, filter_In, HE0. rewrite Nat.ltb_lt. split; [intros [H|H]; [apply HEs in H|]; tauto|].
      intros H. destruct (Nat.le_gt_cases (cell_dimension c) 1); [left; apply HEs; auto|right; auto]. }
    assert (NE' : NoDup E').
    { apply nodup_app_intro; auto; [now apply NoDup_filter|]. intros c H1 H2. apply filter_In in H2. destruct H2 as [_ H2]. apply Nat.ltb_lt in H2. apply HEs in H1. lia. }
    destruct (Forall2_combine HF2) as [Hlen Hrep]. cbv beta in Hrep.
    set (Y := Persistence.Y g lC bd V (P : list (cell_ord * cell_ord))).
    set (Z := fun c : cell_ord => match find (fun q : (cell * cell) * list (nat * nat) => oeqb (fst (fst q) : cell_ord) c) (combine P1 reps) with Some q => ve (edges_sum (K:=K) (snd q)) | None => Y c end).
    assert (HZrep : forall i j rep, In ((i, j), rep) (combine P1 reps) -> Z i = ve (edges_sum (K:=K) rep)).
    { intros i j rep Hq. unfold Z. destruct (find _ _) as [[[i' j'] rep']|] eqn:Ef.
      - apply find_some in Ef. destruct Ef as [Hq' Ei]. cbn [fst snd] in *. apply oeqb_eq in Ei. cbn in Ei. subst i'.
        assert (j' = j).
        { apply in_combine_l in Hq, Hq'. apply HP1 in Hq, Hq'. apply (@P_death_u K F cell_ord phi l bd V Hl Hcx HV HR P HP i j' j); apply HP; tauto. }
        subst j'. rewrite (@combine_fun _ _ P1 reps _ _ _ NP1 Hq Hq'). reflexivity.
      - exfalso. pose proof (find_none _ _ Ef _ Hq) as Hx. cbn [fst] in Hx. rewrite oeqb_refl in Hx. discriminate. }
    assert (HZcase : forall c : cell_ord, (exists j rep, In ((c, j), rep) (combine P1 reps) /\ Z c = ve (edges_sum (K:=K) rep)) \/ Z c = Y c).
    { intros c. unfold Z. destruct (find _ _) as [[[i' j'] rep']|] eqn:Ef; auto. left. apply find_some in Ef. destruct Ef as [Hq Ei]. cbn [fst snd] in *. apply oeqb_eq in Ei. cbn in Ei. subst i'. eauto. }
    assert (HZ : forall c : cell_ord, In c E' \/ (exists j, In (c, j) P) -> leading phiC (Z c) c /\ cycle_at phiC g lC bd (g c) (phi c) (Z c)).
    { intros c Hc. destruct (HZcase c) as [(j & rep & Hq & ->)| ->].
      - apply (@rep_cycle c j rep); [exact (Hrep _ _ Hq)|]. apply in_combine_l in Hq. apply HP1 in Hq. tauto.
      - split; [|exact (@interval_born K F cell_ord phi g (-1)%Z l bd V Hl Hcx Hg HO HV HR E' P HP HE' c Hc)].
        apply (@Y_chain K F cell_ord phi g (-1)%Z l bd V Hl Hcx Hg HO HV HR P HP c). destruct Hc as [Hc|(j & Hc)]; [apply HE' in Hc; apply Hc|].
        eapply (@P_birth K F cell_ord phi g (-1)%Z l bd Hcx Hg HO P HP); exact Hc. }
    assert (HZd : forall i j : cell_ord, In (i, j) P -> boundary_at phiC g (-1) lC bd (g i) (phi j) (Z i)).
    { intros i j Hij. destruct (HZcase i) as [(j' & rep & Hq & ->)| ->].
      - pose proof Hq as Hq1. apply in_combine_l in Hq1. apply HP1 in Hq1. destruct Hq1 as (Hj' & Hp' & Hd & _).
        assert (j' = j) by (apply (@P_death_u K F cell_ord phi l bd V Hl Hcx HV HR P HP i j' j); auto; apply HP; auto). subst j'.
        rewrite Hd. apply (boundary_1_ok HG HL). apply (rep_bounds (Hrep _ _ Hq)).
      - exact (@interval_bounds K F cell_ord phi g (-1)%Z l bd V Hl Hcx Hg HO HV HR P HP i j Hij). }
    exists (map (zz Z) (filter (fun c => cell_dimension c =? 1) Es)). split.
    - assert (H : forall L : list cell, incl L Es -> (forall c, In c L -> cell_dimension c = 1) -> Forall2 (fun b c => cycle_1 (K:=K) time n z E b c) (map phi L) (map (zz Z) L)).
      { induction L as [|c L IH]; intros Hi Hd; cbn [map]; constructor; [|apply IH; intros x Hx; [apply Hi|apply Hd]; now right].
        apply (cycle_1_ok HG HE HL). assert (HcE : In c E') by (apply in_app_iff; left; apply Hi; now left). destruct (HZ c (or_introl HcE)) as [_ Hc].
        cbv beta in Hc. rewrite (Hd c) in Hc by now left. eapply cycle_at_ext; [|exact Hc]. exact (chain_edges (proj1 Hc)). }
      apply H; [intros c Hc; apply filter_In in Hc; tauto|]. intros c Hc. apply filter_In in Hc. apply Nat.eqb_eq. tauto.
    - intros s t Hst. pose proof (@family_basis K F cell_ord phi g (-1)%Z l bd V Hl Hcx Hg HO HV HR E' P NE' NP HP HE' Z HZ HZd 1%Z s t) as HB.
      set (A := filter (fun c => oleb (phi c) s) (filter (fun c => cell_dimension c =? 1) Es)).
      set (al := fun p : cell * cell => oleb (phi (fst p)) s && oltb t (phi (snd p))).
      set (B := map fst (filter al P1)).
      assert (Hch : chains_alive s t (combine (map phi (filter (fun c => cell_dimension c =? 1) Es)) (map (zz Z) (filter (fun c => cell_dimension c =? 1) Es))) (combine (map (fun p : cell * cell => (phi (fst p), phi (snd p))) P1) reps) = map (zz Z) (A ++ B)).
      { unfold chains_alive. rewrite map_app. f_equal.
        - rewrite combine_maps, filter_map, map_map. reflexivity.
        - rewrite combine_map_l, filter_map, map_map. cbn [fst snd]. unfold B. rewrite <- (filter_combine al P1 reps Hlen), !map_map. apply map_ext_in.
          intros [[i j] rep] Hq. apply filter_In in Hq. destruct Hq as [Hq _]. cbn [fst snd]. unfold zz. rewrite (HZrep _ _ _ Hq). reflexivity. }
      rewrite Hch. apply basis_list. eapply basis_perm; [|exact HB]. unfold alive. apply Permutation_app.
      + assert (Hf : forall (p q : cell_ord -> bool) (L L' : list cell_ord), (forall c, In c L' -> p c = false) -> (forall c, In c L -> p c = q c) -> filter p (L ++ L') = filter q L).
        { intros p q L L' H1 H2. rewrite filter_app, (filter_ext_in p q L H2). replace (filter p L') with (@nil cell_ord); [apply app_nil_r|].
          symmetry. clear -H1. induction L' as [|c L' IH]; auto. cbn [filter]. rewrite (H1 c) by now left. apply IH. intros x Hx. apply H1. now right. }
        assert (EA : A = filter (fun c => (cell_dimension c =? 1) && oleb (phi c) s) Es) by apply filter_filter. rewrite EA. apply Permutation_refl'. apply Hf.
        * intros c Hc. apply filter_In in Hc. destruct Hc as [_ Hc]. apply Nat.ltb_lt in Hc. destruct (Z.eqb_spec (Z.of_nat (cell_dimension c)) 1); [lia|reflexivity].
        * intros c _. f_equal. destruct (Nat.eqb_spec (cell_dimension c) 1) as [->|Hne]; [reflexivity|]. apply Z.eqb_neq. lia.
      + unfold B. apply Permutation_map. apply NoDup_Permutation; [now apply NoDup_filter|now apply NoDup_filter|]. intros [i j]. rewrite !filter_In. cbn [fst snd]. unfold al. cbn [fst snd].
        rewrite HP1. rewrite (HP i j). split.
        * intros [[Hj Hp] H]. apply andb_prop in H. destruct H as [H H3]. apply andb_prop in H. destruct H as [H1 H2]. apply Z.eqb_eq in H1. rewrite H2, H3. split; [|reflexivity].
          split; auto. split; auto. split; [lia|]. intros Eq. destruct (oleb_spec (phi i) s) as [L1|]; [|discriminate]. destruct (oltb_spec t (phi j)) as [L2|]; [|discriminate].
          rewrite Eq in L1. apply olt_not_le in L2. apply L2. eapply ole_trans; eauto.
        * intros [(Hj & Hp & Hd & _) H]. split; [auto|]. rewrite Hd. cbn [Z.of_nat]. exact H.
  Qed.
End Reps.
