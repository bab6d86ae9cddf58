(** C113: two groups of points further apart than they are wide: the bars of dimension 0 are those of the groups and one more, which ends at the distance between the groups. *)
From Verif Require Import Base Fields FieldsFacts Spec LinAlg Columns ColumnsFacts Matrices Reduction Rips SpecRips SpecPath RipsCode RipsFacts RipsBasis RipsComplex PropRips RipsCohomology PropRipsCohomology SpecPH Persistence BettiUnique RipsPersistence PropRipsPersistence PropRipsCli BettiMaps BarsUnique RipsSwap RipsCover RipsBars PropRipsOrder PropRipsComponents PropBottleneck PropRipsInput PropClusters.
From Coq Require Import Permutation Sorted Lia.
Set Implicit Arguments.

(** ** Specification *)
(** the two groups are exactly [g] apart: no closer, and some two points at distance [g] *)
Definition gap {F : ordT} (z : F) (d : list (list F)) (p1 p2 : list nat) (g : F) : Prop :=
  groups_apart z d p1 p2 g /\ exists a b, In a p1 /\ In b p2 /\ dist z d a b = g.

Lemma constant_label n : number_of_labels (fun _ => 0) (S n) = 1.
Proof.
  unfold number_of_labels. generalize 0 at 2. induction n as [|n IH]; intros a; [reflexivity|]. specialize (IH (S a)). cbn [seq map] in *.
  cbn [nodup]. cbn [nodup] in IH. destruct (in_dec Nat.eq_dec 0 (0 :: map (fun _ => 0) (seq (S (S a)) n))) as [_|Hn]; [exact IH|exfalso; apply Hn; now left].
Qed.
Section Gap.
  Context {F : ordT} (z : F) (K : coeffT) (d : list (list F)) (p1 p2 : list nat) (g : F).
  Hypothesis Hd : distance_matrix z d.
  Hypothesis Hgap : gap z d p1 p2 g.
  Hypothesis W1 : group_within z d p1 g.
  Hypothesis W2 : group_within z d p2 g.
  Lemma gap_points : 1 <= length d.
  Proof. destruct Hgap as [Hg (a & _ & Ha & _)]. pose proof (proj1 (proj1 Hg a) (or_introl Ha)). lia. Qed.
  Lemma gap_positive : olt z g.
  Proof. destruct Hgap as [Hg (a & _ & Ha & _)]. pose proof (W1 _ _ Ha Ha) as H. destruct Hd as (_ & _ & H3 & _). rewrite H3 in H; auto. apply (proj1 (proj1 Hg a)). auto. Qed.
  Lemma olt_le (a b : F) : olt a b -> ole a b.
  Proof. intros H. apply ole_lt_eq. now left. Qed.
  (** from [g] on everything is joined *)
  Lemma gap_joined t i j : ole g t -> i < length d -> j < length d -> joined z d t i j.
  Proof.
    intros Ht. destruct Hgap as [Hg (a & b & Ha & Hb & Hab)]. pose proof Hd as (_ & Hsym & _ & _).
    assert (L1 : forall x, In x p1 -> x < length d) by (intros x Hx; apply (proj1 (proj1 Hg x)); auto).
    assert (L2 : forall x, In x p2 -> x < length d) by (intros x Hx; apply (proj1 (proj1 Hg x)); auto).
    assert (G : forall p x y, (forall x, In x p -> x < length d) -> group_within z d p g -> In x p -> In y p -> ole (dist z d x y) t).
    { intros p x y _ W Hx Hy. eapply ole_trans; [apply olt_le, W; auto|exact Ht]. }
    assert (J : forall x y, In x p1 -> In y p2 -> joined z d t x y /\ joined z d t y x).
    { intros x y Hx Hy. split.
      - apply (@joined_step F z d t x b y); [|auto|auto|apply (G p2 b y); auto]. apply (@joined_step F z d t x a b); [|auto|auto|rewrite Hab; exact Ht]. apply (@joined_step F z d t x x a); [constructor|auto|auto|apply (G p1 x a); auto].
      - apply (@joined_step F z d t y a x); [|auto|auto|apply (G p1 a x); auto]. apply (@joined_step F z d t y b a); [|auto|auto|rewrite Hsym, Hab by auto; exact Ht]. apply (@joined_step F z d t y y b); [constructor|auto|auto|apply (G p2 y b); auto]. }
    intros Hi Hj. destruct (proj2 (proj1 Hg i) Hi) as [I|I], (proj2 (proj1 Hg j) Hj) as [J'|J'].
    - apply (@joined_step F z d t i i j); [constructor|auto|auto|apply (G p1); auto].
    - exact (proj1 (J _ _ I J')).
    - exact (proj2 (J _ _ J' I)).
    - apply (@joined_step F z d t i i j); [constructor|auto|auto|apply (G p2); auto].
  Qed.
  Lemma gap_one_class s t b : ole z s -> ole s t -> ole g t -> rips_betti z K d 0 s t b -> b = 1.
  Proof.
    intros Hs Hst Ht Hb. destruct (@spec_exists K F z d (distance_rips Hd)) as (Hphi & HD & Hdim & Hl). set (k := length d + 2). specialize (Hl k ltac:(lia)).
    assert (Hlab : labels_components z d t (fun _ => 0)) by (intros i j Hi Hj; split; auto; intros _; now apply gap_joined).
    eapply rips_betti_unique; [exact Hst|exact Hb|].
    replace 1 with (number_of_labels (fun _ => 0) (length d)).
    - eexists _, _, _, _. split; [|apply (@components_betti K F z d Hd _ _ _ k _ Hphi HD Hdim ltac:(lia) Hl s t Hs (fun _ => 0) Hlab)].
      split; auto. split; auto. split; auto. exists k. split; [lia|auto].
    - pose proof gap_points as Hn. destruct (length d) as [|n]; [lia|]. apply constant_label.
  Qed.
  Lemma gap_bars ps ps1 ps2 : rips_bars z K d 0 [z] ps -> rips_bars z K (distances_of z d p1) 0 [z] ps1 -> rips_bars z K (distances_of z d p2) 0 [z] ps2 ->
    Permutation ps ((z, g) :: ps1 ++ ps2).
  Proof.
    intros (P & E0 & E & H) (P1 & _ & E1 & H1) (P2 & _ & E2 & H2). destruct Hgap as [Hg _].
    assert (R1 : forall b e, In (b, e) ps1 -> ole z b /\ olt e g).
    { intros b e Hin. destruct (E1 b e Hin) as [(i & j & Hi & Hj & <-) He]. split; [|apply (within_entry W1), He]. rewrite reorder_length in Hi, Hj. rewrite reorder_dist by auto. apply Hd; apply (group_lt1 Hg), nth_In; auto. }
    assert (R2 : forall b e, In (b, e) ps2 -> ole z b /\ olt e g).
    { intros b e Hin. destruct (E2 b e Hin) as [(i & j & Hi & Hj & <-) He]. split; [|apply (within_entry W2), He]. rewrite reorder_length in Hi, Hj. rewrite reorder_dist by auto. apply Hd; apply (group_lt2 Hg), nth_In; auto. }
    assert (R : forall b e, In (b, e) ps -> ole z b) by (intros b e Hin; destruct (E b e Hin) as [(i & j & Hi & Hj & <-) _]; apply Hd; auto).
    assert (Hq : forall b e, In (b, e) ((z, g) :: ps1 ++ ps2) -> olt b e) by (intros b e [[= <- <-]|Hin]; [exact gap_positive|apply in_app_iff in Hin; destruct Hin; auto]).
    assert (Hall : forall s t, ole s t -> bars_alive s t [z] ps = bars_alive s t [z] ((z, g) :: ps1 ++ ps2)); [|refine (proj2 (@bars_determined F [z] [z] ps ((z, g) :: ps1 ++ ps2) P Hq Hall))].
    assert (Hempty : forall (f : F * F -> bool) l, (forall x, In x l -> f x = false) -> filter f l = []).
    { intros f l. induction l as [|x l IH]; auto. intros Hf. cbn [filter]. rewrite (Hf x (or_introl eq_refl)). apply IH. intros y Hy. apply Hf. now right. }
    intros s t Hst. destruct (lt_or_ge s z) as [Hs|Hs].
    - assert (Hb : forall b, ole z b -> oleb b s = false) by (intros b Hb; apply oleb_gt; eapply olt_le_trans; eauto).
      unfold bars_alive. rewrite !Hempty; auto.
      + intros [b e] [[= <- <-]|Hin]; cbn [fst snd]; rewrite Hb; auto; [apply ole_refl|]. apply in_app_iff in Hin. destruct Hin as [Hin|Hin]; [exact (proj1 (R1 _ _ Hin))|exact (proj1 (R2 _ _ Hin))].
      + intros [b e] Hin. cbn [fst snd]. rewrite Hb; auto. eapply R; eauto.
    - destruct (lt_or_ge t g) as [Ht|Ht].
      + rewrite (@groups_alive F z K d p1 p2 g Hd Hg 0%Z s t _ _ _ Hst Ht (H s t Hst) (H1 s t Hst) (H2 s t Hst)).
        unfold bars_alive. cbn [filter fst snd]. rewrite (oleb_le Hs), (oltb_lt Ht), filter_app. cbn [andb length]. rewrite app_length. lia.
      + rewrite (gap_one_class Hs Hst Ht (H s t Hst)). unfold bars_alive. cbn [filter fst snd]. rewrite (oleb_le Hs), (oltb_ge Ht). cbn [andb length]. rewrite Hempty; auto.
        intros [b e] Hin. cbn [fst snd]. apply in_app_iff in Hin. assert (He : olt e g) by (destruct Hin as [Hin|Hin]; [exact (proj2 (R1 _ _ Hin))|exact (proj2 (R2 _ _ Hin))]).
        rewrite (@oltb_ge F t e) by (apply olt_le; eapply olt_le_trans; eauto). apply andb_false_r.
  Qed.
End Gap.

(** ** C113, library *)
Theorem C113_gap :
  forall (HI HI1 HI2 : heaps) (K : coeffT) (F : ordT) (uw : N) (z : F) (d : list (list F)) (p1 p2 : list nat) (g : F) (max_dim : nat),
  distance_matrix z d -> gap z d p1 p2 g -> group_within z d p1 g -> group_within z d p2 g -> 1 <= max_dim ->
  codes_fit uw (length d) (max_dim + 2) -> codes_fit uw (length p1) (max_dim + 2) -> codes_fit uw (length p2) (max_dim + 2) ->
  forall (L L1 L2 : list N) (fuel fuel1 fuel2 : nat),
  covers_simplices (length d) (max_dim + 2) L -> covers_simplices (length p1) (max_dim + 2) L1 -> covers_simplices (length p2) (max_dim + 2) L2 ->
  length L < fuel -> length L1 < fuel1 -> length L2 < fuel2 ->
  exists rc dg rc1 dg1 rc2 dg2,
    rips_cohomology HI (K:=K) fuel uw z d max_dim = Ok (rc, dg) /\
    rips_cohomology HI1 (K:=K) fuel1 uw z (distances_of z d p1) max_dim = Ok (rc1, dg1) /\
    rips_cohomology HI2 (K:=K) fuel2 uw z (distances_of z d p2) max_dim = Ok (rc2, dg2) /\
    forall (phi phi1 phi2 : N_ord -> F) (dim dim1 dim2 : N_ord -> Z),
    rips_filtration z d phi -> rips_filtration z (distances_of z d p1) phi1 -> rips_filtration z (distances_of z d p2) phi2 ->
    simplex_dim (length d) dim -> simplex_dim (length p1) dim1 -> simplex_dim (length p2) dim2 ->
    Permutation (bars_of phi dim 0 dg) ((z, g) :: bars_of phi1 dim1 0 dg1 ++ bars_of phi2 dim2 0 dg2).
Proof.
  intros HI HI1 HI2 K F uw z d p1 p2 g m Hd Hg W1 W2 Hm Hf Hf1 Hf2 L L1 L2 fuel fuel1 fuel2 HL HL1 HL2 Hfu Hfu1 Hfu2.
  pose proof (reorder_distance Hd p1 (group_lt1 (proj1 Hg))) as R1. pose proof (reorder_distance Hd p2 (group_lt2 (proj1 Hg))) as R2.
  assert (N0 : 1 <= length d) by exact (gap_points Hg).
  assert (N1 : 1 <= length p1) by (destruct Hg as [_ (a & _ & Ha & _)]; destruct p1; [destruct Ha|cbn; lia]). assert (N2 : 1 <= length p2) by (destruct Hg as [_ (_ & b & _ & Hb & _)]; destruct p2; [destruct Hb|cbn; lia]).
  rewrite <- (reorder_length z d p1) in Hf1, HL1, N1. rewrite <- (reorder_length z d p2) in Hf2, HL2, N2.
  destruct (@run_bars F z K HI uw d m (distance_rips Hd) Hm Hf L fuel HL Hfu) as (rc & dg & E & H).
  destruct (@run_bars F z K HI1 uw _ m (distance_rips R1) Hm Hf1 L1 fuel1 HL1 Hfu1) as (rc1 & dg1 & E1 & H1).
  destruct (@run_bars F z K HI2 uw _ m (distance_rips R2) Hm Hf2 L2 fuel2 HL2 Hfu2) as (rc2 & dg2 & E2 & H2).
  destruct (@C44_diagram_shape HI K F uw z _ m (distance_rips Hd) Hm Hf L fuel HL Hfu) as (rc0 & dg0 & E0 & _ & _ & _ & S). rewrite E in E0. injection E0 as <- <-.
  destruct (@C44_diagram_shape HI1 K F uw z _ m (distance_rips R1) Hm Hf1 L1 fuel1 HL1 Hfu1) as (rc0 & dg0 & E0 & _ & _ & _ & S1). rewrite E1 in E0. injection E0 as <- <-.
  destruct (@C44_diagram_shape HI2 K F uw z _ m (distance_rips R2) Hm Hf2 L2 fuel2 HL2 Hfu2) as (rc0 & dg0 & E0 & _ & _ & _ & S2). rewrite E2 in E0. injection E0 as <- <-.
  exists rc, dg, rc1, dg1, rc2, dg2. split; auto. split; auto. split; auto. intros phi phi1 phi2 dim dim1 dim2 P P1 P2 M M1 M2.
  rewrite <- (reorder_length z d p1) in M1. rewrite <- (reorder_length z d p2) in M2.
  pose proof (H phi dim P M 0%Z ltac:(lia)) as B. pose proof (H1 phi1 dim1 P1 M1 0%Z ltac:(lia)) as B1. pose proof (H2 phi2 dim2 P2 M2 0%Z ltac:(lia)) as B2.
  assert (Hn : forall dd (ph : N_ord -> F) (di : N_ord -> Z) (dg : diagram (rev_ord rips_index)), 1 <= length dd -> distance_matrix z dd -> rips_filtration z dd ph -> simplex_dim (length dd) di ->
    essential dg = (if length dd =? 0 then [] else [Reverse (code (length dd) [0])]) -> map (fun c => ph (unrev c)) (filter (fun c => (di (unrev c) =? 0)%Z) (essential dg)) = [z]).
  { intros dd ph di dg' Hl Hdd Hph Hdi ->. destruct (Nat.eqb_spec (length dd) 0) as [|_]; [lia|]. cbn [filter unrev]. rewrite Hdi by (split; [discriminate|split; repeat constructor; lia]).
    cbn [length Z.of_nat Pos.of_succ_nat Z.sub Z.add Z.opp Z.pos_sub Z.eqb map unrev]. f_equal. apply (@phi_vertex F z dd Hdd ph Hph 0). lia. }
  rewrite (Hn d phi dim dg N0 Hd P M S) in B. rewrite (Hn _ phi1 dim1 dg1 N1 R1 P1 M1 S1) in B1. rewrite (Hn _ phi2 dim2 dg2 N2 R2 P2 M2 S2) in B2.
  exact (@gap_bars F z K d p1 p2 g Hd Hg W1 W2 _ _ _ B B1 B2).
Qed.
Print Assumptions C113_gap.

(** ** C113, program: one line more, if the gap is longer than 0.01 ([eps]) *)
Theorem C113_program :
  forall (HI HI1 HI2 : heaps) (F : ordT) (uw : N) (z : F) (sub : F -> F -> F) (eps : F) (d : list (list F)) (p1 p2 : list nat) (g : F) (max_dim : nat),
  distance_matrix z d -> gap z d p1 p2 g -> group_within z d p1 g -> group_within z d p2 g -> 1 <= max_dim -> (forall x, ~ olt eps (sub x x)) ->
  codes_fit uw (length d) (max_dim + 2) -> codes_fit uw (length p1) (max_dim + 2) -> codes_fit uw (length p2) (max_dim + 2) ->
  forall (L L1 L2 : list N) (fuel fuel1 fuel2 : nat),
  covers_simplices (length d) (max_dim + 2) L -> covers_simplices (length p1) (max_dim + 2) L1 -> covers_simplices (length p2) (max_dim + 2) L2 ->
  length L < fuel -> length L1 < fuel1 -> length L2 < fuel2 ->
  exists sizes ess printed sizes1 ess1 printed1 sizes2 ess2 printed2,
    rips_main HI fuel uw z sub eps d max_dim = Ok (sizes, ess, printed) /\
    rips_main HI1 fuel1 uw z sub eps (distances_of z d p1) max_dim = Ok (sizes1, ess1, printed1) /\
    rips_main HI2 fuel2 uw z sub eps (distances_of z d p2) max_dim = Ok (sizes2, ess2, printed2) /\
    (olt eps (sub g z) -> Permutation (lines_of 0 printed) ((z, g) :: lines_of 0 printed1 ++ lines_of 0 printed2)) /\
    (~ olt eps (sub g z) -> Permutation (lines_of 0 printed) (lines_of 0 printed1 ++ lines_of 0 printed2)).
Proof.
  intros HI HI1 HI2 F uw z sub eps d p1 p2 g m Hd Hg W1 W2 Hm He Hf Hf1 Hf2 L L1 L2 fuel fuel1 fuel2 HL HL1 HL2 Hfu Hfu1 Hfu2.
  pose proof (reorder_distance Hd p1 (group_lt1 (proj1 Hg))) as R1. pose proof (reorder_distance Hd p2 (group_lt2 (proj1 Hg))) as R2.
  assert (N0 : 1 <= length d) by exact (gap_points Hg).
  assert (N1 : 1 <= length p1) by (destruct Hg as [_ (a & _ & Ha & _)]; destruct p1; [destruct Ha|cbn; lia]). assert (N2 : 1 <= length p2) by (destruct Hg as [_ (_ & b & _ & Hb & _)]; destruct p2; [destruct Hb|cbn; lia]).
  rewrite <- (reorder_length z d p1) in Hf1, HL1, N1. rewrite <- (reorder_length z d p2) in Hf2, HL2, N2.
  destruct (@program_bars HI F uw z sub eps d m (distance_rips Hd) Hm Hf L fuel HL Hfu) as (sz & ess & bars & E & O & H).
  destruct (@program_bars HI1 F uw z sub eps _ m (distance_rips R1) Hm Hf1 L1 fuel1 HL1 Hfu1) as (sz1 & ess1 & bars1 & E1 & O1 & H1).
  destruct (@program_bars HI2 F uw z sub eps _ m (distance_rips R2) Hm Hf2 L2 fuel2 HL2 Hfu2) as (sz2 & ess2 & bars2 & E2 & O2 & H2).
  destruct (@C64_rips_program HI F uw z sub eps _ m (distance_rips Hd) Hm Hf L fuel HL Hfu) as (es0 & bs0 & E0 & S & _). rewrite E in E0. injection E0 as _ <- _.
  destruct (@C64_rips_program HI1 F uw z sub eps _ m (distance_rips R1) Hm Hf1 L1 fuel1 HL1 Hfu1) as (es0 & bs1 & E0 & S1 & _). rewrite E1 in E0. injection E0 as _ <- _.
  destruct (@C64_rips_program HI2 F uw z sub eps _ m (distance_rips R2) Hm Hf2 L2 fuel2 HL2 Hfu2) as (es0 & bs2 & E0 & S2 & _). rewrite E2 in E0. injection E0 as _ <- _.
  do 3 eexists. do 3 eexists. do 3 eexists. split; [exact E|]. split; [exact E1|]. split; [exact E2|].
  assert (Hn : forall n' (es : list (nat * N * F)), 1 <= n' -> es = (if n' =? 0 then [] else [(0, code n' [0], z)]) -> map snd (filter (fun line : nat * N * F => fst (fst line) =? 0) es) = [z]).
  { intros n' es Hl ->. destruct (Nat.eqb_spec n' 0); [lia|reflexivity]. }
  pose proof (H 0 ltac:(lia)) as B. pose proof (H1 0 ltac:(lia)) as B1. pose proof (H2 0 ltac:(lia)) as B2. rewrite (Hn _ _ N0 S) in B. rewrite (Hn _ _ N1 S1) in B1. rewrite (Hn _ _ N2 S2) in B2.
  pose proof (@permutation_filter _ (fun p : F * F => oltb eps (sub (snd p) (fst p))) _ _ (@gap_bars F z Z2_coeff d p1 p2 g Hd Hg W1 W2 _ _ _ B B1 B2)) as P. cbn [filter fst snd] in P. rewrite filter_app in P.
  rewrite (@printed_lines F sub eps _ bars He O), (@printed_lines F sub eps _ bars1 He O1), (@printed_lines F sub eps _ bars2 He O2).
  destruct (oltb_spec eps (sub g z)) as [Hx|Hx]; (split; intros Hy; [|]); try contradiction; exact P.
Qed.
Print Assumptions C113_program.

(** The two squares of C108, with sides 2 and diagonals 3, 10 apart: the bar from 0 to 10 *)
Example C113_ex : gap (0 : nat_ord) two_squares [0; 2; 4; 6] [1; 3; 5; 7] (10 : nat_ord) /\
  exists sz ess bars, rips_main list_heaps 200 (2 ^ 64) (0 : nat_ord) Nat.sub (0 : nat_ord) two_squares 1 = Ok (sz, ess, bars) /\
    lines_of 0 bars = [(0, 10); (0, 2); (0, 2); (0, 2); (0, 2); (0, 2); (0, 2)].
Proof.
  destruct C108_ex as (_ & H & _ & _ & _ & (sz & ess & bars & H1 & H2 & _) & _). split; [|exists sz, ess, bars; auto].
  split; auto. exists 0, 1. split; [now left|]. split; [now left|reflexivity].
Qed.
