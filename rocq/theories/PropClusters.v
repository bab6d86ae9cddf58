(** C108: groups of points. Before the smallest distance between two groups of points, the bars of all points are the bars of the one group and those of the other. *)
From Verif Require Import Base Fields FieldsFacts Spec LinAlg Columns ColumnsFacts Matrices Reduction Rips SpecRips SpecPath RipsCode RipsFacts RipsBasis RipsComplex PropRips RipsCohomology PropRipsCohomology SpecPH Persistence BettiUnique RipsPersistence PropRipsPersistence PropRipsCli BettiMaps BettiFactor BarsUnique RipsSwap PropRipsOrder RipsRepeat RipsCover PropRipsRepeat PropRipsComponents RipsBars SpecBottleneck Matching PropBottleneck PropRipsInput RipsClusters Examples.
From Coq Require Import Permutation Sorted Lia.
Set Implicit Arguments.

(** ** Specification *)
(** [p1] and [p2] between them list the points [0 .. n-1], and a point of [p1] and a point of [p2] are at least [g] apart *)
Definition groups_apart {F : ordT} (z : F) (d : list (list F)) (p1 p2 : list nat) (g : F) : Prop :=
  (forall a, In a p1 \/ In a p2 <-> a < length d) /\ forall a b, In a p1 -> In b p2 -> ole g (dist z d a b).
(** the bars that end before [g] *)
Definition ended_before {F : ordT} (g : F) (ps : list (F * F)) : list (F * F) := filter (fun p => oltb (snd p) g) ps.
(** the births before [g] of the classes that are still there at [g], because they never die or die later *)
Definition open_at {F : ordT} (g : F) (es : list F) (ps : list (F * F)) : list F :=
  filter (fun b => oltb b g) es ++ map fst (filter (fun p => oltb (fst p) g && negb (oltb (snd p) g)) ps).
(** the points of a group are less than [g] apart *)
Definition group_within {F : ordT} (z : F) (d : list (list F)) (p : list nat) (g : F) : Prop := forall a b, In a p -> In b p -> olt (dist z d a b) g.
(** the distances between the points of the list [p] *)
Notation distances_of := reorder.

(** ** Counting *)
Section Counting.
  Context {F : ordT}.
  Variable g : F.
  Lemma oltb_lt (a b : F) : olt a b -> oltb a b = true.
  Proof. intros H. destruct (oltb_spec a b); [auto|contradiction]. Qed.
  Lemma oltb_ge (a b : F) : ole b a -> oltb a b = false.
  Proof. intros H. destruct (oltb_spec a b) as [H0|]; auto. exfalso. apply olt_not_le in H0. auto. Qed.
  Lemma oleb_le (a b : F) : ole a b -> oleb a b = true.
  Proof. intros H. destruct (oleb_spec a b); [auto|contradiction]. Qed.
  Lemma oleb_gt (a b : F) : olt b a -> oleb a b = false.
  Proof. intros H. destruct (oleb_spec a b) as [H0|]; auto. exfalso. apply olt_not_le in H. auto. Qed.
  Lemma lt_or_ge (a b : F) : olt a b \/ ole b a.
  Proof. destruct (oltb_spec a b) as [|H]; auto. right. now apply ole_not_lt. Qed.
  (** before [g] the cut bars are alive when the bars are *)
  Lemma alive_cut s t es ps : ole s t -> olt t g -> bars_alive s t (open_at g es ps) (ended_before g ps) = bars_alive s t es ps.
  Proof.
    intros Hst Htg. assert (Hsg : olt s g) by (eapply ole_lt_trans; eauto). unfold bars_alive, open_at, ended_before. rewrite filter_app, app_length, <- Nat.add_assoc. f_equal.
    - f_equal. induction es as [|b es IH]; auto. cbn [filter]. destruct (lt_or_ge b g) as [H|H].
      + rewrite (oltb_lt H). cbn [filter]. now rewrite IH.
      + rewrite (oltb_ge H). rewrite (@oleb_gt b s); [auto|]. eapply olt_le_trans; eauto.
    - induction ps as [|[b e] ps IH]; auto. cbn [filter fst snd]. destruct (lt_or_ge e g) as [H|H].
      + rewrite (oltb_lt H), andb_false_r. cbn [filter fst snd]. destruct (oleb b s && oltb t e); cbn [length]; lia.
      + rewrite (oltb_ge H), andb_true_r. rewrite (@oltb_lt t e) by (eapply olt_le_trans; eauto). rewrite andb_true_r. destruct (lt_or_ge b g) as [Hb|Hb].
        * rewrite (oltb_lt Hb). cbn [map fst filter]. destruct (oleb b s); cbn [length]; lia.
        * rewrite (oltb_ge Hb). rewrite (@oleb_gt b s) by (eapply olt_le_trans; eauto). lia.
  Qed.
  Definition omin (a b : F) : F := if oleb a b then a else b.
  Lemma omin_le (a b : F) : ole (omin a b) a /\ ole (omin a b) b.
  Proof. unfold omin. destruct (oleb_spec a b) as [H|H]; split; auto; try apply ole_refl. destruct (ole_total a b); [contradiction|auto]. Qed.
  Lemma omin_mono (a b c : F) : ole a b -> ole (omin a c) (omin b c).
  Proof.
    intros H. unfold omin at 2. destruct (oleb_spec b c) as [Hb|Hb]; [exact (ole_trans (proj1 (omin_le a c)) H)|exact (proj2 (omin_le a c))].
  Qed.
  (** no cut bar changes after the last end point [T] *)
  Lemma alive_last T s t (es : list F) (ps : list (F * F)) : (forall b, In b es -> ole b T) -> (forall p, In p ps -> ole (fst p) T /\ ole (snd p) T) ->
    bars_alive s t es ps = bars_alive (omin s T) (omin t T) es ps.
  Proof.
    intros H1 H2. unfold bars_alive.
    assert (Hs : forall b, ole b T -> oleb b s = oleb b (omin s T)).
    { intros b Hb. destruct (oleb_spec b s) as [H|H].
      - symmetry. apply oleb_le. unfold omin. destruct (oleb s T); auto.
      - symmetry. apply oleb_gt. eapply ole_lt_trans; [exact (proj1 (omin_le s T))|]. destruct (lt_or_ge s b); [auto|contradiction]. }
    assert (Ht : forall e, ole e T -> oltb t e = oltb (omin t T) e).
    { intros e He. destruct (oltb_spec t e) as [H|H].
      - symmetry. apply oltb_lt. eapply ole_lt_trans; [exact (proj1 (omin_le t T))|auto].
      - symmetry. apply oltb_ge. unfold omin. destruct (oleb t T); auto. now apply ole_not_lt. }
    f_equal; f_equal; apply filter_ext_in.
    - intros b Hb. apply Hs. auto.
    - intros p Hp. destruct (H2 p Hp). rewrite <- Hs, <- Ht by auto. reflexivity.
  Qed.
  Lemma last_before (X : list F) : (forall x, In x X -> olt x g) -> X = [] \/ exists T, olt T g /\ forall x, In x X -> ole x T.
  Proof.
    intros H. induction X as [|x X IH]; [now left|]. right. destruct IH as [->|(T & T1 & T2)]; [intros y Hy; apply H; now right| |].
    - exists x. split; [apply H; now left|]. intros y [<-|[]]. apply ole_refl.
    - destruct (ole_total x T) as [Hx|Hx]; [exists T|exists x]; split; auto; [|apply H; now left|].
      + intros y [<-|Hy]; auto.
      + intros y [<-|Hy]; [apply ole_refl|]. eapply ole_trans; eauto.
  Qed.
  Lemma open_lt es ps b : In b (open_at g es ps) -> olt b g.
  Proof.
    unfold open_at. rewrite in_app_iff, filter_In, in_map_iff. intros [[_ H]|([x y] & <- & H)]; [destruct (oltb_spec b g); [auto|discriminate]|].
    apply filter_In in H. destruct H as [_ H]. cbn [fst snd] in *. apply andb_prop in H. destruct H as [H _]. destruct (oltb_spec x g); [auto|discriminate].
  Qed.
  Lemma ended_in ps b e : In (b, e) (ended_before g ps) <-> In (b, e) ps /\ olt e g.
  Proof. unfold ended_before. rewrite filter_In. cbn [snd]. destruct (oltb_spec e g); intuition discriminate. Qed.
  (** bars that agree before [g] are equal when cut at [g] *)
  Lemma cut_determined es ps es1 ps1 es2 ps2 :
    (forall b e, In (b, e) ps -> olt b e) -> (forall b e, In (b, e) ps1 -> olt b e) -> (forall b e, In (b, e) ps2 -> olt b e) ->
    (forall s t, ole s t -> olt t g -> bars_alive s t es ps = bars_alive s t es1 ps1 + bars_alive s t es2 ps2) ->
    Permutation (open_at g es ps) (open_at g es1 ps1 ++ open_at g es2 ps2) /\
    Permutation (ended_before g ps) (ended_before g ps1 ++ ended_before g ps2).
  Proof.
    intros P0 P1 P2 Ha. set (E := open_at g es ps). set (E1 := open_at g es1 ps1). set (E2 := open_at g es2 ps2). set (Q := ended_before g ps). set (Q1 := ended_before g ps1). set (Q2 := ended_before g ps2).
    assert (HQ : forall b e, In (b, e) Q -> olt b e) by (intros b e H; apply P0; now apply ended_in in H).
    assert (HQ1 : forall b e, In (b, e) Q1 -> olt b e) by (intros b e H; apply P1; now apply ended_in in H).
    assert (HQ2 : forall b e, In (b, e) Q2 -> olt b e) by (intros b e H; apply P2; now apply ended_in in H).
    apply bars_determined; auto.
    { intros b e H. apply in_app_iff in H. destruct H; auto. }
    assert (Happ : forall s t, bars_alive s t (E1 ++ E2) (Q1 ++ Q2) = bars_alive s t E1 Q1 + bars_alive s t E2 Q2) by (intros s t; unfold bars_alive; rewrite !filter_app, !app_length; lia).
    assert (Hbelow : forall s t, ole s t -> olt t g -> bars_alive s t E Q = bars_alive s t (E1 ++ E2) (Q1 ++ Q2)).
    { intros s t Hst Htg. rewrite Happ. unfold E, E1, E2, Q, Q1, Q2. rewrite !alive_cut by auto. auto. }
    set (X := (E ++ map snd Q) ++ (E1 ++ map snd Q1) ++ (E2 ++ map snd Q2)).
    assert (HX : forall x, In x X -> olt x g).
    { assert (He : forall q x, In x (map snd (ended_before g q)) -> olt x g) by (intros q x Hx; apply in_map_iff in Hx; destruct Hx as ([b e] & <- & Hx); apply ended_in in Hx; cbn [snd]; tauto).
      intros x Hx. unfold X in Hx. rewrite !in_app_iff in Hx. destruct Hx as [[H|H]|[[H|H]|[H|H]]]; first [now apply open_lt in H|now apply He in H]. }
    intros s t Hst. destruct (@last_before X HX) as [EX|(T & HT & HTX)].
    - unfold X in EX. apply app_eq_nil in EX. destruct EX as [EX EX']. apply app_eq_nil in EX'. destruct EX' as [EX1 EX2]. apply app_eq_nil in EX, EX1, EX2.
      destruct EX as [EE EX], EX1 as [EE1 EX1], EX2 as [EE2 EX2]. apply map_eq_nil in EX, EX1, EX2. rewrite EE, EE1, EE2, EX, EX1, EX2. reflexivity.
    - assert (Hle : forall b e : F, olt b e -> ole b e) by (intros b e H; apply ole_lt_eq; now left).
      rewrite (@alive_last T s t E Q), (@alive_last T s t (E1 ++ E2) (Q1 ++ Q2)).
      + apply Hbelow; [now apply omin_mono|]. eapply ole_lt_trans; [exact (proj2 (omin_le t T))|auto].
      + intros b Hb. apply HTX. unfold X. apply in_app_iff in Hb. rewrite !in_app_iff. tauto.
      + intros [b e] Hp. cbn [fst snd]. assert (He : ole e T) by (apply HTX; unfold X; apply in_app_iff in Hp; rewrite !in_app_iff; destruct Hp as [Hp|Hp]; apply (in_map snd) in Hp; tauto).
        split; auto. apply in_app_iff in Hp. eapply ole_trans; [|exact He]. apply Hle. destruct Hp; auto.
      + intros b Hb. apply HTX. unfold X. rewrite !in_app_iff. tauto.
      + intros [b e] Hp. cbn [fst snd]. assert (He : ole e T) by (apply HTX; unfold X; rewrite !in_app_iff; apply (in_map snd) in Hp; tauto).
        split; auto. eapply ole_trans; [|exact He]. apply Hle; auto.
  Qed.
End Counting.

(** ** Bars of groups *)
Section Groups.
  Context {F : ordT} (z : F) (K : coeffT) (d : list (list F)) (p1 p2 : list nat) (g : F).
  Hypothesis Hd : distance_matrix z d.
  Hypothesis Hg : groups_apart z d p1 p2 g.
  Lemma group_lt1 a : In a p1 -> a < length d.
  Proof. intros H. apply Hg. now left. Qed.
  Lemma group_lt2 a : In a p2 -> a < length d.
  Proof. intros H. apply Hg. now right. Qed.
  Lemma groups_alive q s t b b1 b2 : ole s t -> olt t g -> rips_betti z K d q s t b -> rips_betti z K (distances_of z d p1) q s t b1 -> rips_betti z K (distances_of z d p2) q s t b2 -> b = b1 + b2.
  Proof.
    intros Hst Htg Hb (phi1 & D1 & dim1 & l1 & X1 & B1) (phi2 & D2 & dim2 & l2 & X2 & B2).
    apply (@cover_betti F z K d Hd (p1 ++ p2) q s t b Hst) in Hb; [|intros a; rewrite in_app_iff; apply Hg].
    destruct Hb as (phi & D & dim & l & X & B).
    eapply (@groups_betti F z K (distances_of z d (p1 ++ p2)) (distances_of z d p1) (distances_of z d p2) t); eauto; rewrite ?reorder_length, ?app_length; auto.
    - intros i j Hi Hj. rewrite !reorder_dist by (rewrite ?app_length; lia). now rewrite !app_nth1 by auto.
    - intros i j Hi Hj. rewrite !reorder_dist by (rewrite ?app_length; lia). rewrite !app_nth2 by lia. now rewrite !(Nat.add_comm (length p1)), !Nat.add_sub.
    - intros i j Hi Hj. rewrite reorder_dist by (rewrite app_length; lia). rewrite app_nth1, app_nth2 by lia. rewrite Nat.add_comm, Nat.add_sub.
      eapply olt_le_trans; [exact Htg|]. apply Hg; apply nth_In; auto.
  Qed.
  Lemma groups_bars q es ps es1 ps1 es2 ps2 : rips_bars z K d q es ps -> rips_bars z K (distances_of z d p1) q es1 ps1 -> rips_bars z K (distances_of z d p2) q es2 ps2 ->
    Permutation (open_at g es ps) (open_at g es1 ps1 ++ open_at g es2 ps2) /\
    Permutation (ended_before g ps) (ended_before g ps1 ++ ended_before g ps2).
  Proof.
    intros (H1 & _ & _ & H2) (A1 & _ & _ & A2) (B1 & _ & _ & B2). apply cut_determined; auto. intros s t Hst Htg. eapply groups_alive; eauto.
  Qed.
  Lemma group_distance p : (forall a, In a p -> a < length d) -> rips_matrix z (distances_of z d p).
  Proof. intros H. apply distance_rips. now apply reorder_distance. Qed.
  Lemma within_entry p x : group_within z d p g -> entry_of z (distances_of z d p) x -> olt x g.
  Proof.
    intros Hw (i & j & Hi & Hj & <-). rewrite reorder_length in Hi, Hj. rewrite reorder_dist by auto. apply Hw; now apply nth_In.
  Qed.
End Groups.

(** ** C108, library *)
(** births of the classes of degree [q] that never die, and the bars of degree [q] of positive length, in a diagram of a reduced Rips coboundary matrix *)
Definition births_of {F : ordT} (phi : N_ord -> F) (dim : N_ord -> Z) (q : Z) (dg : diagram (rev_ord N_ord)) : list F :=
  map (fun c => phi (unrev c)) (filter (fun c => (dim (unrev c) =? q)%Z) (essential dg)).
Definition bars_of {F : ordT} (phi : N_ord -> F) (dim : N_ord -> Z) (q : Z) (dg : diagram (rev_ord N_ord)) : list (F * F) :=
  filter proper (map (fun p => (phi (unrev (snd p)), phi (unrev (fst p)))) (filter (fun p => (dim (unrev (snd p)) =? q)%Z) (pairings dg))).

Theorem C108_groups :
  forall (HI HI1 HI2 : heaps) (K : coeffT) (F : ordT) (uw : N) (z : F) (d : list (list F)) (p1 p2 : list nat) (g : F) (max_dim : nat),
  distance_matrix z d -> groups_apart z d p1 p2 g -> 1 <= max_dim ->
  codes_fit uw (length d) (max_dim + 2) -> codes_fit uw (length p1) (max_dim + 2) -> codes_fit uw (length p2) (max_dim + 2) ->
  forall (L L1 L2 : list N) (fuel fuel1 fuel2 : nat),
  covers_simplices (length d) (max_dim + 2) L -> covers_simplices (length p1) (max_dim + 2) L1 -> covers_simplices (length p2) (max_dim + 2) L2 ->
  length L < fuel -> length L1 < fuel1 -> length L2 < fuel2 ->
  exists rc dg rc1 dg1 rc2 dg2,
    rips_cohomology HI (K:=K) fuel uw z d max_dim = Ok (rc, dg) /\
    rips_cohomology HI1 (K:=K) fuel1 uw z (distances_of z d p1) max_dim = Ok (rc1, dg1) /\
    rips_cohomology HI2 (K:=K) fuel2 uw z (distances_of z d p2) max_dim = Ok (rc2, dg2) /\
    forall (phi phi1 phi2 : N_ord -> F) (dim dim1 dim2 : N_ord -> Z),
    rips_filtration z d phi -> rips_filtration z (distances_of z d p1) phi1 -> rips_filtration z (distances_of z d p2) phi2 ->
    simplex_dim (length d) dim -> simplex_dim (length p1) dim1 -> simplex_dim (length p2) dim2 ->
    forall q, (q <= Z.of_nat max_dim)%Z ->
      Permutation (ended_before g (bars_of phi dim q dg)) (ended_before g (bars_of phi1 dim1 q dg1) ++ ended_before g (bars_of phi2 dim2 q dg2)) /\
      Permutation (open_at g (births_of phi dim q dg) (bars_of phi dim q dg))
        (open_at g (births_of phi1 dim1 q dg1) (bars_of phi1 dim1 q dg1) ++ open_at g (births_of phi2 dim2 q dg2) (bars_of phi2 dim2 q dg2)).
Proof.
  intros HI HI1 HI2 K F uw z d p1 p2 g m Hd Hg Hm Hf Hf1 Hf2 L L1 L2 fuel fuel1 fuel2 HL HL1 HL2 Hfu Hfu1 Hfu2.
  pose proof (group_distance Hd p1 (group_lt1 Hg)) as R1. pose proof (group_distance Hd p2 (group_lt2 Hg)) as R2.
  rewrite <- (reorder_length z d p1) in Hf1, HL1. rewrite <- (reorder_length z d p2) in Hf2, HL2.
  destruct (@run_bars F z K HI uw d m (distance_rips Hd) Hm Hf L fuel HL Hfu) as (rc & dg & E & H).
  destruct (@run_bars F z K HI1 uw _ m R1 Hm Hf1 L1 fuel1 HL1 Hfu1) as (rc1 & dg1 & E1 & H1).
  destruct (@run_bars F z K HI2 uw _ m R2 Hm Hf2 L2 fuel2 HL2 Hfu2) as (rc2 & dg2 & E2 & H2).
  exists rc, dg, rc1, dg1, rc2, dg2. split; auto. split; auto. split; auto. intros phi phi1 phi2 dim dim1 dim2 P P1 P2 M M1 M2 q Hq.
  rewrite <- (reorder_length z d p1) in M1. rewrite <- (reorder_length z d p2) in M2.
  destruct (@groups_bars F z K d p1 p2 g Hd Hg q _ _ _ _ _ _ (H phi dim P M q Hq) (H1 phi1 dim1 P1 M1 q Hq) (H2 phi2 dim2 P2 M2 q Hq)) as [A B]. split; [exact B|exact A].
Qed.
Print Assumptions C108_groups.

(** Groups further apart than they are wide: in dimension at least one the bars of all points that begin before the gap are the bars of the
    one group and those of the other, and none of them outlives the gap. *)
Lemma ended_all {F : ordT} (g : F) (ps : list (F * F)) : (forall b e, In (b, e) ps -> olt e g) -> ended_before g ps = ps.
Proof.
  intros H. unfold ended_before. induction ps as [|[b e] ps IH]; auto. cbn [filter snd]. rewrite (oltb_lt (H b e (or_introl eq_refl))). f_equal. apply IH. intros x y Hx. apply (H x y). now right.
Qed.
Lemma open_none {F : ordT} (g : F) (ps : list (F * F)) : (forall b e, In (b, e) ps -> olt e g) -> open_at g [] ps = [].
Proof.
  intros H. unfold open_at. cbn [filter app]. induction ps as [|[b e] ps IH]; auto. cbn [filter fst snd]. rewrite (oltb_lt (H b e (or_introl eq_refl))), andb_false_r. apply IH. intros x y Hx. apply (H x y). now right.
Qed.
Lemma none_open {F : ordT} (g : F) (es : list F) (ps : list (F * F)) : (forall b e, In (b, e) ps -> olt b e) -> open_at g es ps = [] -> ended_before g ps = filter (fun p => oltb (fst p) g) ps.
Proof.
  intros Hp H. unfold open_at in H. apply app_eq_nil in H. destruct H as [_ H]. apply map_eq_nil in H. unfold ended_before. apply filter_ext_in. intros [b e] Hin. cbn [fst snd].
  destruct (lt_or_ge e g) as [He|He].
  - rewrite (oltb_lt He). symmetry. apply oltb_lt. eapply olt_trans; [apply (Hp b e Hin)|auto].
  - rewrite (oltb_ge He). destruct (oltb b g) eqn:Eb; auto. exfalso.
    assert (Hx : In (b, e) (filter (fun p => oltb (fst p) g && negb (oltb (snd p) g)) ps)) by (apply filter_In; split; auto; cbn [fst snd]; now rewrite Eb, (oltb_ge He)). rewrite H in Hx. destruct Hx.
Qed.
Section Far.
  Context {F : ordT} (z : F) (K : coeffT) (d : list (list F)) (p1 p2 : list nat) (g : F).
  Hypothesis Hd : distance_matrix z d.
  Hypothesis Hg : groups_apart z d p1 p2 g.
  Hypothesis W1 : group_within z d p1 g.
  Hypothesis W2 : group_within z d p2 g.
  Lemma far_bars q es ps ps1 ps2 : rips_bars z K d q es ps -> rips_bars z K (distances_of z d p1) q [] ps1 -> rips_bars z K (distances_of z d p2) q [] ps2 ->
    Permutation (filter (fun p => oltb (fst p) g) ps) (ps1 ++ ps2) /\ forall b e, In (b, e) ps -> olt b g -> olt e g.
  Proof.
    intros H H1 H2. destruct (@groups_bars F z K d p1 p2 g Hd Hg q _ _ _ _ _ _ H H1 H2) as [A B].
    assert (T1 : forall b e, In (b, e) ps1 -> olt e g) by (intros b e Hin; destruct H1 as (_ & _ & H1 & _); apply (within_entry W1), (H1 b e Hin)).
    assert (T2 : forall b e, In (b, e) ps2 -> olt e g) by (intros b e Hin; destruct H2 as (_ & _ & H2 & _); apply (within_entry W2), (H2 b e Hin)).
    rewrite (open_none ps1 T1), (open_none ps2 T2) in A. apply Permutation_sym, Permutation_nil in A. pose proof (proj1 H) as Hp. pose proof (@none_open F g es ps Hp A) as E. split.
    - rewrite <- E. rewrite B. now rewrite (ended_all ps1 T1), (ended_all ps2 T2).
    - intros b e Hin Hb. assert (Hx : In (b, e) (ended_before g ps)) by (rewrite E; apply filter_In; split; auto; cbn [fst]; now apply oltb_lt). now apply ended_in in Hx.
  Qed.
  Lemma far_bars_0 q es ps es1 ps1 es2 ps2 : rips_bars z K d q es ps -> rips_bars z K (distances_of z d p1) q es1 ps1 -> rips_bars z K (distances_of z d p2) q es2 ps2 ->
    Permutation (ended_before g ps) (ps1 ++ ps2).
  Proof.
    intros H H1 H2. destruct (@groups_bars F z K d p1 p2 g Hd Hg q _ _ _ _ _ _ H H1 H2) as [A B].
    assert (T1 : forall b e, In (b, e) ps1 -> olt e g) by (intros b e Hin; destruct H1 as (_ & _ & H1 & _); apply (within_entry W1), (H1 b e Hin)).
    assert (T2 : forall b e, In (b, e) ps2 -> olt e g) by (intros b e Hin; destruct H2 as (_ & _ & H2 & _); apply (within_entry W2), (H2 b e Hin)).
    rewrite B. now rewrite (ended_all ps1 T1), (ended_all ps2 T2).
  Qed.
End Far.
Theorem C108_far_groups :
  forall (HI HI1 HI2 : heaps) (K : coeffT) (F : ordT) (uw : N) (z : F) (d : list (list F)) (p1 p2 : list nat) (g : F) (max_dim : nat),
  distance_matrix z d -> groups_apart z d p1 p2 g -> group_within z d p1 g -> group_within z d p2 g -> 1 <= max_dim ->
  codes_fit uw (length d) (max_dim + 2) -> codes_fit uw (length p1) (max_dim + 2) -> codes_fit uw (length p2) (max_dim + 2) ->
  forall (L L1 L2 : list N) (fuel fuel1 fuel2 : nat),
  covers_simplices (length d) (max_dim + 2) L -> covers_simplices (length p1) (max_dim + 2) L1 -> covers_simplices (length p2) (max_dim + 2) L2 ->
  length L < fuel -> length L1 < fuel1 -> length L2 < fuel2 ->
  exists rc dg rc1 dg1 rc2 dg2,
    rips_cohomology HI (K:=K) fuel uw z d max_dim = Ok (rc, dg) /\
    rips_cohomology HI1 (K:=K) fuel1 uw z (distances_of z d p1) max_dim = Ok (rc1, dg1) /\
    rips_cohomology HI2 (K:=K) fuel2 uw z (distances_of z d p2) max_dim = Ok (rc2, dg2) /\
    forall (phi phi1 phi2 : N_ord -> F) (dim dim1 dim2 : N_ord -> Z),
    rips_filtration z d phi -> rips_filtration z (distances_of z d p1) phi1 -> rips_filtration z (distances_of z d p2) phi2 ->
    simplex_dim (length d) dim -> simplex_dim (length p1) dim1 -> simplex_dim (length p2) dim2 ->
    forall q, (q <= Z.of_nat max_dim)%Z ->
      Permutation (ended_before g (bars_of phi dim q dg)) (bars_of phi1 dim1 q dg1 ++ bars_of phi2 dim2 q dg2) /\
      ((1 <= q)%Z ->
       Permutation (filter (fun p => oltb (fst p) g) (bars_of phi dim q dg)) (bars_of phi1 dim1 q dg1 ++ bars_of phi2 dim2 q dg2) /\
       forall b e, In (b, e) (bars_of phi dim q dg) -> olt b g -> olt e g).
Proof.
  intros HI HI1 HI2 K F uw z d p1 p2 g m Hd Hg W1 W2 Hm Hf Hf1 Hf2 L L1 L2 fuel fuel1 fuel2 HL HL1 HL2 Hfu Hfu1 Hfu2.
  pose proof (group_distance Hd p1 (group_lt1 Hg)) as R1. pose proof (group_distance Hd p2 (group_lt2 Hg)) as R2.
  rewrite <- (reorder_length z d p1) in Hf1, HL1. rewrite <- (reorder_length z d p2) in Hf2, HL2.
  destruct (@run_bars F z K HI uw d m (distance_rips Hd) Hm Hf L fuel HL Hfu) as (rc & dg & E & H).
  destruct (@run_bars F z K HI1 uw _ m R1 Hm Hf1 L1 fuel1 HL1 Hfu1) as (rc1 & dg1 & E1 & H1).
  destruct (@run_bars F z K HI2 uw _ m R2 Hm Hf2 L2 fuel2 HL2 Hfu2) as (rc2 & dg2 & E2 & H2).
  destruct (@C44_diagram_shape HI1 K F uw z _ m R1 Hm Hf1 L1 fuel1 HL1 Hfu1) as (rc0 & dg0 & E0 & _ & _ & _ & S1). rewrite E1 in E0. injection E0 as <- <-.
  destruct (@C44_diagram_shape HI2 K F uw z _ m R2 Hm Hf2 L2 fuel2 HL2 Hfu2) as (rc0 & dg0 & E0 & _ & _ & _ & S2). rewrite E2 in E0. injection E0 as <- <-.
  exists rc, dg, rc1, dg1, rc2, dg2. split; auto. split; auto. split; auto. intros phi phi1 phi2 dim dim1 dim2 P P1 P2 M M1 M2 q Hq.
  rewrite <- (reorder_length z d p1) in M1. rewrite <- (reorder_length z d p2) in M2.
  pose proof (H phi dim P M q Hq) as B. pose proof (H1 phi1 dim1 P1 M1 q Hq) as B1. pose proof (H2 phi2 dim2 P2 M2 q Hq) as B2.
  split; [eapply (@far_bars_0 F z K d p1 p2 g); eauto|]. intros Hq1.
  assert (Hn : forall (ph : N_ord -> F) (di : N_ord -> Z) k (dd : diagram (rev_ord rips_index)), simplex_dim k di -> essential dd = (if k =? 0 then [] else [Reverse (code k [0])]) -> map (fun c => ph (unrev c)) (filter (fun c => (di (unrev c) =? q)%Z) (essential dd)) = []).
  { intros ph di k dd Hdi ->. destruct (Nat.eqb_spec k 0) as [|Hk]; auto. cbn [filter unrev]. rewrite Hdi; [|split; [discriminate|split; repeat constructor; lia]]. destruct (Z.eqb_spec (Z.of_nat (length [0]) - 1) q) as [Ez|]; [|reflexivity]. cbn in Ez. lia. }
  rewrite (Hn phi1 dim1 _ dg1 M1 S1) in B1. rewrite (Hn phi2 dim2 _ dg2 M2 S2) in B2.
  exact (@far_bars F z K d p1 p2 g Hd Hg W1 W2 q _ _ _ _ B B1 B2).
Qed.
Print Assumptions C108_far_groups.

(** ** C108, program.  Lines of dimension [k] as (birth, death). *)
Definition lines_of {F : ordT} (k : nat) (printed : list (bar_line F)) : list (F * F) := map snd (filter (fun line : bar_line F => fst (fst line) =? k) printed).
Lemma printed_lines {F : ordT} (sub : F -> F -> F) (eps : F) (k : nat) (bars : list (bar_line F)) : (forall x, ~ olt eps (sub x x)) ->
  (forall k b e fb fe, In (k, (b, e), (fb, fe)) bars -> ole fb fe) ->
  lines_of k (filter (fun line : bar_line F => oltb eps (sub (snd (snd line)) (fst (snd line)))) bars) =
  filter (fun p => oltb eps (sub (snd p) (fst p))) (filter proper (map snd (filter (fun line : bar_line F => fst (fst line) =? k) bars))).
Proof.
  intros He Hle. unfold lines_of. induction bars as [|[[k' [b e]] [fb fe]] bars IH]; auto.
  assert (IH' := IH ltac:(intros k0 b0 e0 f0 f1 Hin; eapply Hle; right; eauto)). pose proof (Hle k' b e fb fe (or_introl eq_refl)) as Hb.
  cbn [filter fst snd]. destruct (oltb eps (sub fe fb)) eqn:Ep; cbn [filter fst snd]; destruct (k' =? k); cbn [map filter fst snd]; auto; unfold proper at 1; cbn [fst snd].
  - destruct (oltb_spec fb fe) as [H|H]; [cbn [filter fst snd]; rewrite Ep; now rewrite IH'|]. exfalso. assert (fb = fe) by (apply ole_lt_eq in Hb; destruct Hb; [contradiction|auto]). subst fe.
    destruct (oltb_spec eps (sub fb fb)); [eapply He; eauto|discriminate].
  - destruct (oltb fb fe); [cbn [filter fst snd]; rewrite Ep|]; now rewrite IH'.
Qed.
Lemma filter_comm {A} (f g : A -> bool) (l : list A) : filter f (filter g l) = filter g (filter f l).
Proof. induction l as [|a l IH]; auto. cbn [filter]. destruct (g a) eqn:Eg, (f a) eqn:Ef; cbn [filter]; rewrite ?Eg, ?Ef, ?IH; auto. Qed.
Theorem C108_program :
  forall (HI HI1 HI2 : heaps) (F : ordT) (uw : N) (z : F) (sub : F -> F -> F) (eps : F) (d : list (list F)) (p1 p2 : list nat) (g : F) (max_dim : nat),
  distance_matrix z d -> groups_apart z d p1 p2 g -> group_within z d p1 g -> group_within z d p2 g -> 1 <= max_dim -> (forall x, ~ olt eps (sub x x)) ->
  codes_fit uw (length d) (max_dim + 2) -> codes_fit uw (length p1) (max_dim + 2) -> codes_fit uw (length p2) (max_dim + 2) ->
  forall (L L1 L2 : list N) (fuel fuel1 fuel2 : nat),
  covers_simplices (length d) (max_dim + 2) L -> covers_simplices (length p1) (max_dim + 2) L1 -> covers_simplices (length p2) (max_dim + 2) L2 ->
  length L < fuel -> length L1 < fuel1 -> length L2 < fuel2 ->
  exists sizes ess printed sizes1 ess1 printed1 sizes2 ess2 printed2,
    rips_main HI fuel uw z sub eps d max_dim = Ok (sizes, ess, printed) /\
    rips_main HI1 fuel1 uw z sub eps (distances_of z d p1) max_dim = Ok (sizes1, ess1, printed1) /\
    rips_main HI2 fuel2 uw z sub eps (distances_of z d p2) max_dim = Ok (sizes2, ess2, printed2) /\
    Permutation (ended_before g (lines_of 0 printed)) (lines_of 0 printed1 ++ lines_of 0 printed2) /\
    forall k, 1 <= k <= max_dim ->
      Permutation (filter (fun p => oltb (fst p) g) (lines_of k printed)) (lines_of k printed1 ++ lines_of k printed2) /\
      forall b e, In (b, e) (lines_of k printed) -> olt b g -> olt e g.
Proof.
  intros HI HI1 HI2 F uw z sub eps d p1 p2 g m Hd Hg W1 W2 Hm He Hf Hf1 Hf2 L L1 L2 fuel fuel1 fuel2 HL HL1 HL2 Hfu Hfu1 Hfu2.
  pose proof (group_distance Hd p1 (group_lt1 Hg)) as R1. pose proof (group_distance Hd p2 (group_lt2 Hg)) as R2.
  rewrite <- (reorder_length z d p1) in Hf1, HL1. rewrite <- (reorder_length z d p2) in Hf2, HL2.
  destruct (@program_bars HI F uw z sub eps d m (distance_rips Hd) Hm Hf L fuel HL Hfu) as (sz & ess & bars & E & O & H).
  destruct (@program_bars HI1 F uw z sub eps _ m R1 Hm Hf1 L1 fuel1 HL1 Hfu1) as (sz1 & ess1 & bars1 & E1 & O1 & H1).
  destruct (@program_bars HI2 F uw z sub eps _ m R2 Hm Hf2 L2 fuel2 HL2 Hfu2) as (sz2 & ess2 & bars2 & E2 & O2 & H2).
  destruct (@C64_rips_program HI1 F uw z sub eps _ m R1 Hm Hf1 L1 fuel1 HL1 Hfu1) as (es0 & bs0 & E0 & S1 & _). rewrite E1 in E0. injection E0 as _ <- _.
  destruct (@C64_rips_program HI2 F uw z sub eps _ m R2 Hm Hf2 L2 fuel2 HL2 Hfu2) as (es0 & bs0' & E0 & S2 & _). rewrite E2 in E0. injection E0 as _ <- _.
  do 3 eexists. do 3 eexists. do 3 eexists. split; [exact E|]. split; [exact E1|]. split; [exact E2|].
  split; [|intros k Hk]; rewrite (@printed_lines F sub eps _ bars He O), (@printed_lines F sub eps _ bars1 He O1), (@printed_lines F sub eps _ bars2 He O2).
  - pose proof (@far_bars_0 F z Z2_coeff d p1 p2 g Hd Hg W1 W2 _ _ _ _ _ _ _ (H 0 ltac:(lia)) (H1 0 ltac:(lia)) (H2 0 ltac:(lia))) as P.
    rewrite <- filter_app. unfold ended_before. rewrite filter_comm. apply permutation_filter. exact P.
  - assert (Hn : forall n' (es : list (nat * N * F)), es = (if n' =? 0 then [] else [(0, code n' [0], z)]) -> map snd (filter (fun line : nat * N * F => fst (fst line) =? k) es) = []).
    { intros n' es ->. destruct (n' =? 0); auto. cbn [filter fst]. destruct (Nat.eqb_spec 0 k); [lia|reflexivity]. }
    pose proof (H k ltac:(lia)) as B. pose proof (H1 k ltac:(lia)) as B1. pose proof (H2 k ltac:(lia)) as B2. rewrite (Hn _ _ S1) in B1. rewrite (Hn _ _ S2) in B2.
    destruct (@far_bars F z Z2_coeff d p1 p2 g Hd Hg W1 W2 _ _ _ _ _ B B1 B2) as [P Q]. split.
    + rewrite <- filter_app. rewrite filter_comm. apply permutation_filter. exact P.
    + intros b e Hin. apply filter_In in Hin. apply (Q b e), Hin.
Qed.
Print Assumptions C108_program.

(** Two squares (sides 2, diagonals 3), 10 apart, with their corners listed in turn. *)
Definition two_squares : list (list nat_ord) :=
  map (fun i => map (fun j => if Nat.even i then if Nat.even j then nth ((j / 2 + 4 - i / 2) mod 4) [0; 2; 3; 2] 0 else 10 else if Nat.even j then 10 else nth ((j / 2 + 4 - i / 2) mod 4) [0; 2; 3; 2] 0) (seq 0 8)) (seq 0 8).
Example C108_ex :
  distance_matrix (0 : nat_ord) two_squares /\ groups_apart (0 : nat_ord) two_squares [0; 2; 4; 6] [1; 3; 5; 7] (10 : nat_ord) /\
  group_within (0 : nat_ord) two_squares [0; 2; 4; 6] (10 : nat_ord) /\ group_within (0 : nat_ord) two_squares [1; 3; 5; 7] (10 : nat_ord) /\
  distances_of (0 : nat_ord) two_squares [0; 2; 4; 6] = [[0; 2; 3; 2]; [2; 0; 2; 3]; [3; 2; 0; 2]; [2; 3; 2; 0]] /\
  (exists sz ess bars, rips_main list_heaps 200 (2 ^ 64) (0 : nat_ord) Nat.sub (0 : nat_ord) two_squares 1 = Ok (sz, ess, bars) /\
     lines_of 0 bars = [(0, 10); (0, 2); (0, 2); (0, 2); (0, 2); (0, 2); (0, 2)] /\ lines_of 1 bars = [(2, 3); (2, 3)]) /\
  (exists sz ess bars, rips_main list_heaps 200 (2 ^ 64) (0 : nat_ord) Nat.sub (0 : nat_ord) (distances_of (0 : nat_ord) two_squares [1; 3; 5; 7]) 1 = Ok (sz, ess, bars) /\
     lines_of 0 bars = [(0, 2); (0, 2); (0, 2)] /\ lines_of 1 bars = [(2, 3)]).
Proof.
  assert (Hall : forall (P : nat -> Prop), Forall P (seq 0 8) -> forall i, i < 8 -> P i) by (intros P H i Hi; rewrite Forall_forall in H; apply H, in_seq; lia).
  assert (Hle : forall (a b : nat_ord), ole a b <-> a <= b) by (intros a b; unfold ole; cbn [cmp nat_ord]; apply Nat.compare_le_iff).
  assert (Hlt : forall (a b : nat_ord), olt a b <-> a < b) by (intros a b; unfold olt; cbn [cmp nat_ord]; apply Nat.compare_lt_iff).
  split; [|split; [|split; [|split; [|split; [vm_compute; reflexivity|split]]]]].
  - split; [|split; [|split]]; [| | |intros i j _ _; apply Hle, Nat.le_0_l].
    + intros row Hr. unfold two_squares in *. apply in_map_iff in Hr. destruct Hr as (i & <- & _). now rewrite !map_length.
    + change (length two_squares) with 8. intros i j Hi Hj. revert i Hi j Hj. apply (Hall (fun i => forall j, j < 8 -> dist (0 : nat_ord) two_squares i j = dist (0 : nat_ord) two_squares j i)). repeat (apply Forall_cons; [apply Hall; repeat (apply Forall_cons; [vm_compute; reflexivity|]); apply Forall_nil|]). apply Forall_nil.
    + change (length two_squares) with 8. apply Hall. repeat (apply Forall_cons; [vm_compute; reflexivity|]). apply Forall_nil.
  - split.
    + change (length two_squares) with 8. intros a. split; [intros H; repeat (destruct H as [H|H]); subst; try lia; try contradiction; destruct H|]. revert a. apply Hall. repeat (apply Forall_cons; [cbn; tauto|]). apply Forall_nil.
    + intros a b Ha Hb. apply Hle. repeat (destruct Ha as [<-|Ha]; [repeat (destruct Hb as [<-|Hb]; [vm_compute; lia|]); destruct Hb|]). destruct Ha.
  - intros a b Ha Hb. apply Hlt. repeat (destruct Ha as [<-|Ha]; [repeat (destruct Hb as [<-|Hb]; [vm_compute; lia|]); destruct Hb|]). destruct Ha.
  - intros a b Ha Hb. apply Hlt. repeat (destruct Ha as [<-|Ha]; [repeat (destruct Hb as [<-|Hb]; [vm_compute; lia|]); destruct Hb|]). destruct Ha.
  - do 3 eexists. split; [vm_compute; reflexivity|]. split; vm_compute; reflexivity.
  - do 3 eexists. split; [vm_compute; reflexivity|]. split; vm_compute; reflexivity.
Qed.
