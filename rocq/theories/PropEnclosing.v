(** C100: the enclosing radius. If some point is within [r] of every other point, no bar outlives [r], and capping the distances at [r] changes nothing. *)
From Verif Require Import Base Fields FieldsFacts Spec LinAlg Columns ColumnsFacts Matrices Reduction Rips SpecRips SpecPath RipsCode RipsFacts RipsBasis RipsComplex PropRips RipsCohomology PropRipsCohomology SpecPH Persistence BettiUnique RipsPersistence PropRipsPersistence PropRipsCli BettiMaps BettiFactor BarsUnique RipsSwap PropRipsOrder RipsRepeat RipsCover PropRipsRepeat PropRipsComponents RipsBars SpecBottleneck Matching PropBottleneck RipsCone Examples.
From Coq Require Import Permutation Sorted Lia.
Set Implicit Arguments.

(** ** Specification: every point is within [r] of some one point *)
Definition encloses {F : ordT} (z : F) (d : list (list F)) (r : F) : Prop :=
  exists x, x < length d /\ forall y, y < length d -> ole (dist z d x y) r.
(** the distance, but at most [r] *)
Definition capped {F : ordT} (r x : F) : F := if oleb x r then x else r.

(** ** Bars *)
Section Enclosed.
  Context {F : ordT} (z : F) (K : coeffT) (d : list (list F)).
  Hypothesis Hd : distance_matrix z d.
  Variable r : F.
  Hypothesis Hr : encloses z d r.
  Lemma one_label t : ole r t -> labels_components z d t (fun _ => 0).
  Proof.
    intros Ht. destruct Hr as (x & Hx & H). intros i j Hi Hj. split; auto. intros _. destruct Hd as (_ & Hsym & _).
    apply joined_step with (j := x); auto; [|eapply ole_trans; [now apply H|auto]].
    apply joined_step with (j := i); auto; [constructor|]. rewrite Hsym by auto. eapply ole_trans; [now apply H|auto].
  Qed.
  Lemma one_number : number_of_labels (fun _ => 0) (length d) = 1.
  Proof.
    destruct Hr as (x & Hx & _). unfold number_of_labels. set (L := map _ _). assert (HL : forall v, In v L <-> v = 0).
    { intros v. unfold L. rewrite in_map_iff. split; [intros (y & <- & _); auto|]. intros ->. exists 0. split; auto. apply in_seq. lia. }
    pose proof (NoDup_nodup Nat.eq_dec L) as Hn. assert (HN : forall v, In v (nodup Nat.eq_dec L) <-> v = 0) by (intros v; rewrite nodup_In; apply HL).
    destruct (nodup Nat.eq_dec L) as [|a [|b N]]; auto.
    - exfalso. apply (proj2 (HN 0)); auto.
    - exfalso. assert (a = 0) by (apply HN; now left). assert (b = 0) by (apply HN; right; now left). subst. inversion Hn as [|? ? Hx' _]. apply Hx'. now left.
  Qed.
  Lemma z_le_r : ole z r.
  Proof. destruct Hr as (x & Hx & H). destruct Hd as (_ & _ & H0 & _). rewrite <- (H0 x Hx). auto. Qed.
  Lemma enclosed_betti q s t b : ole z s -> (0 <= q)%Z -> ole s t -> ole r t -> rips_betti z K d q s t b -> b = if (q =? 0)%Z then 1 else 0.
  Proof.
    intros Hz Hq Hst Hrt Hb. destruct (Z.eqb_spec q 0) as [->|Hne].
    - eapply (@rips_betti_unique F z K d 0%Z s t); eauto. pose proof Hb as (phi & D & dim & l & HD & _). exists phi, D, dim, l. split; auto. destruct HD as (A1 & A2 & A3 & k & A4 & A5).
      rewrite <- one_number. apply (@components_betti K F z d Hd phi D dim (k + 2) l); auto; try lia; [|now apply one_label].
      destruct A5 as [N1 N2]. split; auto. intros c. rewrite N2. split; intros (u & U1 & U2 & U3); exists u; split; auto; split; auto; pose proof (simplex_length U1); lia.
    - destruct Hr as (x & Hx & H). eapply (@apex_betti F z K d Hd x q s t); eauto; [intros; eapply ole_trans; eauto|lia].
  Qed.
  Lemma deaths_bound (ps : list (F * F)) (t : F) : exists T, ole t T /\ forall p, In p ps -> ole (snd p) T.
  Proof.
    induction ps as [|p ps (T & H1 & H2)]; [exists t; split; [apply ole_refl|intros p []]|].
    destruct (ole_total (snd p) T) as [H|H].
    - exists T. split; auto. intros p' [<-|Hp]; auto.
    - exists (snd p). split; [eapply ole_trans; eauto|]. intros p' [<-|Hp]; [apply ole_refl|eapply ole_trans; eauto].
  Qed.
  Lemma enclosed_bars q es ps : (0 <= q)%Z -> rips_bars z K d q es ps -> forall b e, In (b, e) ps -> ole e r.
  Proof.
    intros Hq (B1 & B2 & B3 & B4) b e Hin. destruct (oleb_spec e r) as [|Hn]; auto. exfalso.
    assert (Hre : olt r e) by (now apply olt_not_le).
    assert (Ht : exists t, ole b t /\ ole r t /\ olt t e).
    { destruct (ole_total b r) as [H|H]; [exists r|exists b]; repeat split; auto; apply ole_refl. }
    destruct Ht as (t & Hbt & Hrt & Hte). destruct (deaths_bound ps t) as (T & HT1 & HT2).
    destruct (B3 _ _ Hin) as [(i & j & Hi & Hj & Eb) _]. assert (Hz : ole z t) by (eapply ole_trans; [|exact Hbt]; rewrite <- Eb; destruct Hd as (_ & _ & _ & H4); auto).
    pose proof (@enclosed_betti q t t _ Hz Hq (ole_refl t) Hrt (B4 t t (ole_refl t))) as E1.
    pose proof (@enclosed_betti q t T _ Hz Hq HT1 (ole_trans Hrt HT1) (B4 t T HT1)) as E2.
    rewrite <- E2 in E1. unfold bars_alive in E1. apply Nat.add_cancel_l in E1.
    assert (F2 : filter (fun p => oleb (fst p) t && oltb T (snd p)) ps = []).
    { apply filter_none. intros p Hp. destruct (oltb_spec T (snd p)) as [H|]; [|now rewrite andb_false_r]. exfalso. apply olt_not_le in H. auto. }
    rewrite F2 in E1. cbn [length] in E1. apply length_zero_iff_nil in E1.
    assert (Hx : In (b, e) (filter (fun p => oleb (fst p) t && oltb t (snd p)) ps)).
    { apply filter_In. split; auto. cbn [fst snd]. destruct (oleb_spec b t); [|contradiction]. destruct (oltb_spec t e); [auto|contradiction]. }
    rewrite E1 in Hx. destruct Hx.
  Qed.
End Enclosed.

(** ** C100 *)
Theorem C100_enclosing_radius :
  forall (HI : heaps) (K : coeffT) (F : ordT) (uw : N) (z : F) (d : list (list F)) (max_dim : nat),
  distance_matrix z d -> 1 <= max_dim -> codes_fit uw (length d) (max_dim + 2) ->
  forall (L : list N) (fuel : nat), covers_simplices (length d) (max_dim + 2) L -> length L < fuel ->
  exists rc dg, rips_cohomology HI (K:=K) fuel uw z d max_dim = Ok (rc, dg) /\
    forall (phi : N_ord -> F) (r : F), rips_filtration z d phi -> encloses z d r ->
    forall e b, In (e, b) (pairings dg) -> olt (phi (unrev b)) (phi (unrev e)) -> ole (phi (unrev e)) r.
Proof.
  intros HI K F uw z d m Hd Hm Hfit L fuel HL Hf.
  destruct (@run_bars F z K HI uw d m (distance_rips Hd) Hm Hfit L fuel HL Hf) as (rc & dg & E1 & H1).
  destruct (@C44_diagram_shape HI K F uw z d m (distance_rips Hd) Hm Hfit L fuel HL Hf) as (rc' & dg' & E2 & S1 & _). rewrite E1 in E2. injection E2 as <- <-.
  exists rc, dg. split; auto. intros phi r Hphi Hr e b Hin Hlt.
  destruct (@spec_exists K F z d (distance_rips Hd)) as (_ & _ & Hdim & _). 
  destruct (S1 _ _ Hin) as (s & u & fs & fu & Hs & Hu & Hls & Hlu & Eb & Ee & _).
  assert (Hl : 1 <= length s) by (destruct Hs as (Hne & _); destruct s; [congruence|cbn; lia]).
  pose proof (H1 phi _ Hphi Hdim (Z.of_nat (length s) - 1)%Z ltac:(lia)) as HB.
  eapply (@enclosed_bars F z K d Hd r Hr (Z.of_nat (length s) - 1)%Z _ _ ltac:(lia) HB (phi (unrev b))).
  apply filter_In. split; [|unfold proper; cbn [fst snd]; destruct (oltb_spec (phi (unrev b)) (phi (unrev e))); [auto|contradiction]].
  apply in_map_iff. exists (e, b). split; auto. apply filter_In. split; auto. cbn [snd]. rewrite Eb. cbn [unrev]. rewrite (Hdim _ Hs). now apply Z.eqb_eq.
Qed.
Print Assumptions C100_enclosing_radius.

(** The Rips program: every line of positive length that it prints ends by [r]. *)
Theorem C100_program :
  forall (HI : heaps) (F : ordT) (uw : N) (z : F) (sub : F -> F -> F) (eps : F) (d : list (list F)) (max_dim : nat),
  distance_matrix z d -> 1 <= max_dim -> codes_fit uw (length d) (max_dim + 2) -> (forall x, ~ olt eps (sub x x)) ->
  forall (L : list N) (fuel : nat), covers_simplices (length d) (max_dim + 2) L -> length L < fuel ->
  exists sizes (ess : list (nat * N * F)) (printed : list (bar_line F)),
    rips_main HI fuel uw z sub eps d max_dim = Ok (sizes, ess, printed) /\
    forall r, encloses z d r -> forall k be fb fe, In (k, be, (fb, fe)) printed -> ole fe r.
Proof.
  intros HI F uw z sub eps d m Hd Hm Hfit Heps L fuel HL Hf.
  destruct (@program_bars HI F uw z sub eps d m (distance_rips Hd) Hm Hfit L fuel HL Hf) as (sizes & ess & bars & E & Hle & HB).
  destruct (@C64_rips_program HI F uw z sub eps d m (distance_rips Hd) Hm Hfit L fuel HL Hf) as (ess' & bars' & E' & _ & _ & Hsh & _).
  exists sizes, ess, (filter (fun line => oltb eps (sub (snd (snd line)) (fst (snd line)))) bars). split; auto.
  intros r Hr k [b e] fb fe Hin. pose proof Hin as Hin'.
  rewrite E in E'. assert (Ef : filter (fun line : bar_line F => oltb eps (sub (snd (snd line)) (fst (snd line)))) bars = filter (fun line => oltb eps (sub (snd (snd line)) (fst (snd line)))) bars') by congruence.
  rewrite Ef in Hin'. apply filter_In in Hin'. destruct Hin' as [Hin' _]. apply Hsh in Hin'. destruct Hin' as (Hk & _).
  apply filter_In in Hin. destruct Hin as [Hin Hp]. cbn [fst snd] in Hp. specialize (Hle _ _ _ _ _ Hin).
  assert (Hlt : olt fb fe). { apply ole_lt_eq in Hle. destruct Hle as [Hlt| ->]; auto. exfalso. destruct (oltb_spec eps (sub fe fe)); [eapply Heps; eauto|discriminate]. }
  eapply (@enclosed_bars F z Z2_coeff d Hd r Hr (Z.of_nat k) _ _ ltac:(lia) (HB k Hk) fb).
  apply filter_In. split; [|unfold proper; cbn [fst snd]; destruct (oltb_spec fb fe); [auto|contradiction]].
  apply in_map_iff. exists (k, (b, e), (fb, fe)). split; auto. apply filter_In. split; auto. cbn [fst]. now apply Nat.eqb_eq.
Qed.
Print Assumptions C100_program.

(** Capping the distances at [r] leaves the births of the classes that never die and the bars of positive length as they were. *)
Theorem C100_truncation :
  forall (HI HI' : heaps) (K : coeffT) (F : ordT) (uw : N) (z : F) (r : F) (d d' : list (list F)) (max_dim : nat),
  distance_matrix z d -> rips_matrix z d' -> length d' = length d -> encloses z d r ->
  (forall i j, i < length d -> j < length d -> dist z d' i j = capped r (dist z d i j)) ->
  1 <= max_dim -> codes_fit uw (length d) (max_dim + 2) ->
  forall (L : list N) (fuel fuel' : nat), covers_simplices (length d) (max_dim + 2) L -> length L < fuel -> length L < fuel' ->
  exists rc dg rc' dg',
    rips_cohomology HI (K:=K) fuel uw z d max_dim = Ok (rc, dg) /\
    rips_cohomology HI' (K:=K) fuel' uw z d' max_dim = Ok (rc', dg') /\
    forall (phi phi' : N_ord -> F) (dim : N_ord -> Z), rips_filtration z d phi -> rips_filtration z d' phi' -> simplex_dim (length d) dim ->
    forall q, (0 <= q <= Z.of_nat max_dim)%Z ->
      Permutation (map (fun c => phi (unrev c)) (filter (fun c => (dim (unrev c) =? q)%Z) (essential dg)))
                  (map (fun c => phi' (unrev c)) (filter (fun c => (dim (unrev c) =? q)%Z) (essential dg'))) /\
      Permutation (filter proper (map (fun p => (phi (unrev (snd p)), phi (unrev (fst p)))) (filter (fun p => (dim (unrev (snd p)) =? q)%Z) (pairings dg))))
                  (filter proper (map (fun p => (phi' (unrev (snd p)), phi' (unrev (fst p)))) (filter (fun p => (dim (unrev (snd p)) =? q)%Z) (pairings dg')))).
Proof.
  intros HI HI' K F uw z r d d' m Hd Hd' El Hr Hg Hm Hfit L fuel fuel' HL Hf Hf'. pose proof (distance_rips Hd) as Hrd.
  assert (Hfit' : codes_fit uw (length d') (m + 2)) by now rewrite El. assert (HL' : covers_simplices (length d') (m + 2) L) by now rewrite El.
  destruct (@run_bars F z K HI uw d m Hrd Hm Hfit L fuel HL Hf) as (rc & dg & E1 & H1).
  destruct (@C44_diagram_shape HI K F uw z d m Hrd Hm Hfit L fuel HL Hf) as (rc0 & dg0 & E0 & S1 & _ & _ & S2). rewrite E1 in E0. injection E0 as <- <-.
  destruct (@run_bars F z K HI' uw d' m Hd' Hm Hfit' L fuel' HL' Hf') as (rc' & dg' & E2 & H2).
  exists rc, dg, rc', dg'. split; auto. split; auto. intros phi phi' dim Hphi Hphi' Hdim q Hq.
  assert (Hdim' : simplex_dim (length d') dim) by now rewrite El.
  specialize (H1 phi dim Hphi Hdim q ltac:(lia)). specialize (H2 phi' dim Hphi' Hdim' q ltac:(lia)).
  assert (Hcap : forall x y, ole x y -> ole (capped r x) (capped r y)).
  { intros x y Hxy. unfold capped. destruct (oleb_spec x r) as [Hx|Hx], (oleb_spec y r) as [Hy|Hy]; auto; [exfalso; apply Hx; eapply ole_trans; eauto|apply ole_refl]. }
  pose proof (@mono_bars F F z z K d d' (capped r) Hd' El Hg ltac:(intros; now apply Hcap) q _ _ H1) as H3.
  destruct (rips_bars_unique H3 H2) as [P1 P2].
  assert (Hid : forall x, ole x r -> capped r x = x) by (intros x Hx; unfold capped; destruct (oleb_spec x r); [auto|contradiction]).
  split.
  - rewrite <- P1. rewrite map_map. erewrite map_ext_in; [apply Permutation_refl|]. intros c Hc. cbv beta. symmetry. apply Hid.
    apply filter_In in Hc. destruct Hc as [Hc _]. rewrite S2 in Hc. destruct (Nat.eqb_spec (length d) 0) as [|Hn]; [destruct Hc|]. destruct Hc as [<-|[]]. cbn [unrev].
    rewrite (@phi_vertex F z d Hd phi Hphi 0) by lia. exact (z_le_r Hd Hr).
  - rewrite <- P2. set (ps := filter proper _) in H1 |- *. erewrite (map_ext_in _ (fun p => p)).
    + rewrite map_id. unfold ps. rewrite filter_filter_sub by auto. apply Permutation_refl.
    + intros [b e] Hbe. pose proof (@enclosed_bars F z K d Hd r Hr q _ _ (proj1 Hq) H1 b e Hbe) as He. destruct H1 as (B1 & _). unfold gmap. cbn [fst snd]. rewrite !Hid; auto.
      eapply ole_trans; [|exact He]. apply ole_lt_eq. left. now apply B1.
Qed.
Print Assumptions C100_truncation.

(** Four points around a square (sides 2, diagonals 3) and a point on a stalk, at distance 5 from one corner: that corner is within 5 of every point, no point is within 4 of every point.
    The longest distance is 8; all bars, among them the bar (2, 3) of dimension 1, end by 5. *)
Definition stalk : list (list nat_ord) := [[0; 2; 3; 2; 5]; [2; 0; 2; 3; 7]; [3; 2; 0; 2; 8]; [2; 3; 2; 0; 7]; [5; 7; 8; 7; 0]].
Definition stalk5 : list (list nat_ord) := [[0; 2; 3; 2; 5]; [2; 0; 2; 3; 5]; [3; 2; 0; 2; 5]; [2; 3; 2; 0; 5]; [5; 5; 5; 5; 0]].
Example C100_ex :
  distance_matrix (0 : nat_ord) stalk /\ rips_matrix (0 : nat_ord) stalk5 /\ length stalk5 = length stalk /\
  encloses (0 : nat_ord) stalk (5 : nat_ord) /\ ~ encloses (0 : nat_ord) stalk (4 : nat_ord) /\
  (forall i j, i < length stalk -> j < length stalk -> dist (0 : nat_ord) stalk5 i j = capped (5 : nat_ord) (dist (0 : nat_ord) stalk i j)) /\
  (exists sz ess bars, rips_main list_heaps 2000 (2 ^ 64) (0 : nat_ord) Nat.sub (0 : nat_ord) stalk 1 = Ok (sz, ess, bars) /\ map (fun l => (fst (fst l), snd l)) bars = [(1, (2, 3)); (0, (0, 2)); (0, (0, 2)); (0, (0, 2)); (0, (0, 5))]) /\
  (exists sz ess bars, rips_main list_heaps 2000 (2 ^ 64) (0 : nat_ord) Nat.sub (0 : nat_ord) stalk5 1 = Ok (sz, ess, bars) /\ map (fun l => (fst (fst l), snd l)) bars = [(1, (2, 3)); (0, (0, 2)); (0, (0, 2)); (0, (0, 2)); (0, (0, 5))]).
Proof.
  assert (Hle : forall (a b : nat_ord), ole a b <-> a <= b) by (intros a b; unfold ole; cbn [cmp nat_ord]; apply Nat.compare_le_iff).
  assert (HD : distance_matrix (0 : nat_ord) stalk /\ distance_matrix (0 : nat_ord) stalk5).
  { split; (split; [intros row H; simpl in H; repeat (destruct H as [<-|H]; [reflexivity|]); destruct H|]); change (length stalk) with 5; change (length stalk5) with 5; (split; [|split]).
    1, 4: intros i j Hi Hj; do 5 (destruct i as [|i]; [do 5 (destruct j as [|j]; [reflexivity|]); lia|]); lia.
    1, 3: intros i Hi; do 5 (destruct i as [|i]; [reflexivity|]); lia.
    all: intros i j Hi Hj; apply Hle; apply Nat.le_0_l. }
  destruct HD as [HD1 HD2]. split; auto. split; [exact (distance_rips HD2)|]. split; [reflexivity|]. split; [|split; [|split; [|split]]].
  - exists 0. change (length stalk) with 5. split; [lia|]. intros y Hy. apply Hle. do 5 (destruct y as [|y]; [cbn; lia|]). lia.
  - intros (x & Hx & H). change (length stalk) with 5 in *. do 4 (destruct x as [|x]; [specialize (H 4 ltac:(lia)); apply Hle in H; cbn in H; lia|]). destruct x as [|x]; [|lia]. specialize (H 0 ltac:(lia)). apply Hle in H. cbn in H. lia.
  - change (length stalk) with 5. intros i j Hi Hj. do 5 (destruct i as [|i]; [do 5 (destruct j as [|j]; [reflexivity|]); lia|]). lia.
  - do 3 eexists. split; vm_compute; reflexivity.
  - do 3 eexists. split; vm_compute; reflexivity.
Qed.
