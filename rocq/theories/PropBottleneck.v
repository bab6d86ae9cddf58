(** Property theorems C89 and C90: the bars of a Rips input when the distances are sent through a monotone function, and when they are perturbed. *)
From Verif Require Import Base Fields FieldsFacts Spec LinAlg Columns ColumnsFacts Matrices Reduction Rips SpecRips SpecPath RipsCode RipsFacts RipsBasis RipsComplex PropRips RipsCohomology PropRipsCohomology SpecPH Persistence BettiUnique RipsPersistence PropRipsPersistence PropRipsCli BettiMaps BettiFactor BarsUnique RipsSwap PropRipsOrder RipsRepeat RipsCover PropRipsRepeat RipsBars SpecBottleneck Matching Examples.
From Coq Require Import Permutation Sorted Lia.
Set Implicit Arguments.

(** ** C89: a weakly monotone function [g] of the distances *)
Theorem C89_monotone_distances :
  forall (HI HI' : heaps) (K : coeffT) (F F' : ordT) (uw : N) (z : F) (z' : F') (g : F -> F') (d : list (list F)) (d' : list (list F')) (max_dim : nat),
  rips_matrix z d -> rips_matrix z' d' -> length d' = length d ->
  (forall i j, i < length d -> j < length d -> dist z' d' i j = g (dist z d i j)) ->
  (forall x y, ole x y -> ole (g x) (g y)) -> 1 <= max_dim -> codes_fit uw (length d) (max_dim + 2) ->
  forall (L : list N) (fuel fuel' : nat), covers_simplices (length d) (max_dim + 2) L -> length L < fuel -> length L < fuel' ->
  exists rc dg rc' dg',
    rips_cohomology HI (K:=K) fuel uw z d max_dim = Ok (rc, dg) /\
    rips_cohomology HI' (K:=K) fuel' uw z' d' max_dim = Ok (rc', dg') /\
    forall (phi : N_ord -> F) (phi' : N_ord -> F') (dim : N_ord -> Z), rips_filtration z d phi -> rips_filtration z' d' phi' -> simplex_dim (length d) dim ->
    forall q, (q <= Z.of_nat max_dim)%Z ->
      Permutation (map (fun c => g (phi (unrev c))) (filter (fun c => (dim (unrev c) =? q)%Z) (essential dg)))
                  (map (fun c => phi' (unrev c)) (filter (fun c => (dim (unrev c) =? q)%Z) (essential dg'))) /\
      Permutation (filter proper (map (fun p => (g (phi (unrev (snd p))), g (phi (unrev (fst p))))) (filter (fun p => (dim (unrev (snd p)) =? q)%Z) (pairings dg))))
                  (filter proper (map (fun p => (phi' (unrev (snd p)), phi' (unrev (fst p)))) (filter (fun p => (dim (unrev (snd p)) =? q)%Z) (pairings dg')))).
Proof.
  intros HI HI' K F F' uw z z' g d d' m Hd Hd' El Hg Hmono Hm Hfit L fuel fuel' HL Hf Hf'.
  destruct (@run_bars F z K HI uw d m Hd Hm Hfit L fuel HL Hf) as (rc & dg & E1 & H1).
  assert (Hfit' : codes_fit uw (length d') (m + 2)) by now rewrite El. assert (HL' : covers_simplices (length d') (m + 2) L) by now rewrite El.
  destruct (@run_bars F' z' K HI' uw d' m Hd' Hm Hfit' L fuel' HL' Hf') as (rc' & dg' & E2 & H2).
  exists rc, dg, rc', dg'. split; auto. split; auto. intros phi phi' dim Hphi Hphi' Hdim q Hq.
  assert (Hdim' : simplex_dim (length d') dim) by now rewrite El.
  specialize (H1 phi dim Hphi Hdim q Hq). specialize (H2 phi' dim Hphi' Hdim' q Hq).
  pose proof (@mono_bars F F' z z' K d d' g Hd' El Hg (fun x y _ _ => Hmono x y) q _ _ H1) as H3.
  destruct (rips_bars_unique H3 H2) as [P1 P2]. rewrite map_map in P1. split; [exact P1|]. rewrite <- P2. apply Permutation_refl'.
  assert (Hfun : forall P, filter proper (map (gmap g) (filter proper P)) = filter proper (map (gmap g) P)).
  { assert (Hpp : forall p, proper (gmap g p) = true -> proper p = true).
    { intros [b e]. unfold proper, gmap. cbn [fst snd]. destruct (oltb_spec b e) as [|Hb]; auto. destruct (oltb_spec (g b) (g e)) as [Hc|]; auto. exfalso. apply olt_not_le in Hc. apply Hc, Hmono. now apply ole_not_lt. }
    induction P as [|p P IH]; auto. cbn [filter map]. specialize (Hpp p). destruct (proper p); cbn [map filter]; [now rewrite IH|]. destruct (proper (gmap g p)); [discriminate Hpp; auto|exact IH]. }
  rewrite Hfun, map_map. reflexivity.
Qed.
Print Assumptions C89_monotone_distances.

(** ** C90 *)
Definition tabulate {A} (n : nat) (f : nat -> nat -> A) : list (list A) := map (fun i => map (fun j => f i j) (seq 0 n)) (seq 0 n).
Lemma tabulate_length {A} n (f : nat -> nat -> A) : length (tabulate n f) = n.
Proof. unfold tabulate. now rewrite map_length, seq_length. Qed.
Lemma tabulate_dist {F : ordT} (z : F) n f i j : i < n -> j < n -> dist z (tabulate n f) i j = f i j.
Proof.
  intros Hi Hj. unfold dist, tabulate.
  rewrite (nth_indep _ [] (map (fun j => f n j) (seq 0 n))) by now rewrite map_length, seq_length.
  pose proof (map_nth (fun i => map (fun j => f i j) (seq 0 n)) (seq 0 n) n i) as E. cbv beta in E. rewrite E. rewrite seq_nth by auto. cbn [plus].
  rewrite (nth_indep _ z (f i n)) by now rewrite map_length, seq_length. rewrite (map_nth (fun j => f i j)). now rewrite seq_nth.
Qed.
Lemma tabulate_square {F : ordT} n (f : nat -> nat -> F) : square (tabulate n f).
Proof. intros row H. rewrite tabulate_length. apply in_map_iff in H. destruct H as (i & <- & _). now rewrite map_length, seq_length. Qed.
Lemma zle (x y : Z) : @ole Z_ord x y <-> (x <= y)%Z.
Proof. unfold ole. cbn [cmp Z_ord]. now rewrite Z.compare_le_iff. Qed.
Lemma zlt (x y : Z) : @olt Z_ord x y <-> (x < y)%Z.
Proof. rewrite olt_not_le, zle. lia. Qed.
Lemma tol_sym lo hi cut l l' : tol lo hi cut l l' -> tol hi lo cut l' l.
Proof. intros H. apply matching_sym in H. eapply matching_weaken; [| | |exact H]; cbv beta; unfold near; intros; lia. Qed.
Lemma tol_births_sym lo hi l l' : tol_births lo hi l l' -> tol_births hi lo l' l.
Proof. intros H. apply matching_sym in H. eapply matching_weaken; [| | |exact H]; cbv beta; unfold near; intros; lia. Qed.

Section Path.
  Context (K : coeffT).
  (** Two tables in which no two distances come in opposite orders *)
  Lemma comono_tol (z z' : Z) (d d' : list (list Z_ord)) lo hi q es ps es' ps' :
    @distance_matrix Z_ord z d -> @distance_matrix Z_ord z' d' -> length d' = length d ->
    (forall i j, i < length d -> j < length d -> near lo hi (@dist Z_ord z d i j) (@dist Z_ord z' d' i j)) ->
    (forall i j k l, i < length d -> j < length d -> k < length d -> l < length d -> (@dist Z_ord z d i j < @dist Z_ord z d k l)%Z -> (@dist Z_ord z' d' i j <= @dist Z_ord z' d' k l)%Z) ->
    @rips_bars Z_ord z K d q es ps -> @rips_bars Z_ord z' K d' q es' ps' -> tol lo hi 0 ps ps' /\ tol_births lo hi es es'.
  Proof.
    intros Hd Hd' El Hnear Hco HB HB'. set (n := length d) in *.
    pose (P := pair_ord Z_ord Z_ord). pose (ze := (z, z') : P). pose (f := fun i j => (@dist Z_ord z d i j, @dist Z_ord z' d' i j) : P). pose (e := @tabulate P n f).
    assert (Hlex : forall x y : P, ole x y <-> (fst x < fst y \/ fst x = fst y /\ snd x <= snd y)%Z).
    { intros [x1 x2] [y1 y2]. unfold ole. cbn [cmp P pair_ord]. unfold lex_cmp. cbn [fst snd cmp Z_ord]. destruct (Z.compare_spec x1 y1) as [|?|?].
      - rewrite Z.compare_le_iff. lia.
      - split; [lia|discriminate].
      - split; [intros X; exfalso; now apply X|lia]. }
    assert (Lele : length e = n) by (unfold e; apply tabulate_length).
    assert (He : distance_matrix ze e).
    { split; [apply tabulate_square|]. rewrite Lele. split; [|split].
      - intros i j Hi Hj. unfold e. rewrite !tabulate_dist by auto. unfold f. destruct Hd as (_ & X & _). destruct Hd' as (_ & Y & _). rewrite El in Y. now rewrite (X i j), (Y i j) by auto.
      - intros i Hi. unfold e. rewrite !tabulate_dist by auto. unfold f. destruct Hd as (_ & _ & X & _). destruct Hd' as (_ & _ & Y & _). rewrite El in Y. now rewrite X, Y by auto.
      - intros i j Hi Hj. unfold e. rewrite !tabulate_dist by auto. unfold f, ze. apply Hlex. cbn [fst snd]. destruct Hd as (_ & _ & _ & X). destruct Hd' as (_ & _ & _ & Y). rewrite El in Y.
        specialize (X i j Hi Hj). specialize (Y i j Hi Hj). apply zle in X; apply zle in Y. revert X Y. generalize (@dist Z_ord z d i j), (@dist Z_ord z' d' i j). cbn [car Z_ord]. intros a b X Y. destruct (Z.eq_dec z a); [right; split; [assumption|exact Y]|left; apply Z.le_neq; split; [exact X|assumption]]. }
    assert (Hent : forall x, entry_of ze e x -> exists i j, i < n /\ j < n /\ x = f i j).
    { intros x (i & j & Hi & Hj & E). rewrite Lele in Hi, Hj. exists i, j. split; auto. split; auto. unfold e in E. rewrite tabulate_dist in E by auto. now symmetry. }
    destruct (@bars_exist P ze K e q (distance_rips He)) as (es0 & ps0 & H0).
    assert (M1 : @rips_bars Z_ord z K d q (map (@fst Z Z) es0) (filter (@proper Z_ord) (map (@gmap P Z_ord fst) ps0))).
    { apply (@mono_bars P Z_ord ze z K e d fst); auto; try (apply distance_rips; auto).
      - intros i j Hi Hj. rewrite Lele in Hi, Hj. unfold e. now rewrite tabulate_dist by auto.
      - intros x y _ _ Hle. apply Hlex in Hle. apply zle. lia. }
    assert (M2 : @rips_bars Z_ord z' K d' q (map (@snd Z Z) es0) (filter (@proper Z_ord) (map (@gmap P Z_ord snd) ps0))).
    { apply (@mono_bars P Z_ord ze z' K e d' snd); auto; try (apply distance_rips; auto).
      - now rewrite Lele.
      - intros i j Hi Hj. rewrite Lele in Hi, Hj. unfold e. now rewrite tabulate_dist by auto.
      - intros x y Hx Hy Hle. apply Hlex in Hle. apply zle. apply Hent in Hx, Hy. destruct Hx as (i & j & Hi & Hj & ->). destruct Hy as (k & l & Hk & Hl & ->). unfold f in *. cbn [fst snd] in *.
        destruct Hle as [Hle|Hle]; [|lia]. now apply Hco. }
    assert (Hn : forall x, entry_of ze e x -> near lo hi (fst x) (snd x)).
    { intros x Hx. apply Hent in Hx. destruct Hx as (i & j & Hi & Hj & ->). unfold f. cbn [fst snd]. now apply Hnear. }
    destruct (rips_bars_unique M1 HB) as [P1 P2]. destruct (rips_bars_unique M2 HB') as [P1' P2']. destruct H0 as (_ & N1 & N2 & _). split.
    - apply (matching_perm P2 P2'). apply matching_images.
      + intros [b x] Hin _ _. destruct (N2 _ _ Hin). unfold gmap. cbn [fst snd]. auto.
      + intros [b x] Hin _ Hp. destruct (N2 _ _ Hin) as [B1 B2]. apply Hn in B1, B2. unfold gmap, proper in *. cbn [fst snd] in *. match type of Hp with oltb ?a ?b = _ => destruct (oltb_spec a b) as [|Hp']; [discriminate|] end. rewrite zlt in Hp'. unfold near in *. lia.
      + intros [b x] Hin Hp _. destruct (N2 _ _ Hin) as [B1 B2]. apply Hn in B1, B2. unfold gmap, proper in *. cbn [fst snd] in *. match type of Hp with oltb ?a ?b = _ => destruct (oltb_spec a b) as [|Hp']; [discriminate|] end. rewrite zlt in Hp'. unfold near in *. lia.
    - apply (matching_perm P1 P1'). clear - N1 Hn.
      assert (Hx : matching (near lo hi) (fun _ => False) (fun _ => False) (filter (fun _ => true) (map (@fst Z Z) es0)) (filter (fun _ => true) (map (@snd Z Z) es0))).
      { apply matching_images; [|discriminate|discriminate]. intros t Ht _ _. apply Hn. now apply N1. }
      assert (Hf : forall A (l : list A), filter (fun _ => true) l = l) by (induction l; cbn; congruence). now rewrite !Hf in Hx.
  Qed.

  Definition upto (k : nat) (x y : Z) : Z := Z.min (x + Z.of_nat k) (Z.max x y).
  Lemma upto_mono k x x' y y' : (x <= x')%Z -> (y <= y')%Z -> (upto k x y <= upto k x' y')%Z.
  Proof. unfold upto. lia. Qed.
  Definition raised (k : nat) (z z' : Z) (d d' : list (list Z_ord)) : list (list Z_ord) := @tabulate Z_ord (length d) (fun i j => upto k (@dist Z_ord z d i j) (@dist Z_ord z' d' i j)).
  Lemma raised_distance k z z' d d' : @distance_matrix Z_ord z d -> @distance_matrix Z_ord z' d' -> length d' = length d -> @distance_matrix Z_ord (upto k z z') (raised k z z' d d').
  Proof.
    intros (_ & X1 & X2 & X3) (_ & Y1 & Y2 & Y3) El. rewrite El in Y1, Y2, Y3. split; [apply tabulate_square|]. unfold raised. rewrite tabulate_length. split; [|split].
    - intros i j Hi Hj. rewrite !tabulate_dist by auto. now rewrite (X1 i j), (Y1 i j).
    - intros i Hi. rewrite tabulate_dist by auto. now rewrite X2, Y2.
    - intros i j Hi Hj. rewrite tabulate_dist by auto. apply zle. apply upto_mono; apply zle; [exact (X3 i j Hi Hj)|exact (Y3 i j Hi Hj)].
  Qed.
  Lemma raise_tol z z' d d' q es ps : @distance_matrix Z_ord z d -> @distance_matrix Z_ord z' d' -> length d' = length d -> @rips_bars Z_ord z K d q es ps ->
    forall k es' ps', @rips_bars Z_ord (upto k z z') K (raised k z z' d d') q es' ps' -> tol 0 (Z.of_nat k) 0 ps ps' /\ tol_births 0 (Z.of_nat k) es es'.
  Proof.
    intros Hd Hd' El HB. induction k as [|k IH]; intros es' ps' HB'.
    - apply (@comono_tol z (upto 0 z z') d (raised 0 z z' d d') 0 0 q); auto; [now apply raised_distance|unfold raised; apply tabulate_length| |].
      + intros i j Hi Hj. unfold raised. rewrite tabulate_dist by auto. unfold near, upto. lia.
      + intros i j k l Hi Hj Hk Hl Hlt. unfold raised. rewrite !tabulate_dist by auto. unfold upto. lia.
    - pose proof (@raised_distance k z z' d d' Hd Hd' El) as Hk. pose proof (@raised_distance (S k) z z' d d' Hd Hd' El) as HSk.
      destruct (@bars_exist Z_ord (upto k z z') K (raised k z z' d d') q (distance_rips Hk)) as (es1 & ps1 & HB1). destruct (IH _ _ HB1) as [T1 T2].
      destruct (@comono_tol (upto k z z') (upto (S k) z z') (raised k z z' d d') (raised (S k) z z' d d') 0 1 q es1 ps1 es' ps') as [T3 T4]; auto.
      + unfold raised. now rewrite !tabulate_length.
      + unfold raised. rewrite tabulate_length. intros i j Hi Hj. rewrite !tabulate_dist by auto. unfold near, upto. lia.
      + unfold raised. rewrite tabulate_length. intros i j x y Hi Hj Hx Hy. rewrite !tabulate_dist by auto. unfold upto. lia.
      + replace (Z.of_nat (S k)) with (Z.of_nat k + 1)%Z by lia. split; [apply (@tol_comp 0 (Z.of_nat k) 0 0 1 0 ps ps1 ps'); auto; lia|apply (@tol_births_comp 0 (Z.of_nat k) 0 1 es es1 es'); auto].
  Qed.
  Lemma raised_to (k : nat) z z' d d' : length d' = length d -> (forall i j, i < length d -> j < length d -> (Z.abs (@dist Z_ord z d i j - @dist Z_ord z' d' i j) <= Z.of_nat k)%Z) ->
    raised k z z' d d' = @tabulate Z_ord (length d) (fun i j => Z.max (@dist Z_ord z d i j) (@dist Z_ord z' d' i j)).
  Proof.
    intros El H. unfold raised, tabulate. apply map_ext_in. intros i Hi. apply map_ext_in. intros j Hj. apply in_seq in Hi, Hj. specialize (H i j ltac:(lia) ltac:(lia)). unfold upto. cbn [car Z_ord]. lia.
  Qed.
  Lemma perturbed_tol (k : nat) z z' d d' q es ps es' ps' : @distance_matrix Z_ord z d -> @distance_matrix Z_ord z' d' -> length d' = length d ->
    (forall i j, i < length d -> j < length d -> (Z.abs (@dist Z_ord z d i j - @dist Z_ord z' d' i j) <= Z.of_nat k)%Z) ->
    @rips_bars Z_ord z K d q es ps -> @rips_bars Z_ord z' K d' q es' ps' -> tol (Z.of_nat k) (Z.of_nat k) 0 ps ps' /\ tol_births (Z.of_nat k) (Z.of_nat k) es es'.
  Proof.
    intros Hd Hd' El Hk HB HB'.
    pose proof (@raised_distance k z z' d d' Hd Hd' El) as H1.
    destruct (@bars_exist Z_ord (upto k z z') K (raised k z z' d d') q (distance_rips H1)) as (es1 & ps1 & HB1).
    assert (HB1' : @rips_bars Z_ord (upto k z' z) K (raised k z' z d' d) q es1 ps1).
    { assert (E : raised k z' z d' d = raised k z z' d d').
      { rewrite !raised_to; auto; [|rewrite El; intros i j Hi Hj; specialize (Hk i j Hi Hj); lia]. rewrite El. unfold tabulate. apply map_ext. intros i. apply map_ext. intros j. apply Z.max_comm. }
      rewrite E. destruct (Nat.eq_dec (length d) 0) as [En|En].
      - set (r := raised k z z' d d') in *. assert (Er : length r = 0) by (unfold r, raised; now rewrite tabulate_length).
        assert (Hr : @rips_matrix Z_ord (upto k z' z) r) by (apply distance_rips; rewrite <- E; apply raised_distance; auto).
        pose proof (@mono_bars Z_ord Z_ord (upto k z z') (upto k z' z) K r r (fun x => x) Hr eq_refl ltac:(rewrite Er; intros; lia) (fun x y _ _ H => H) q es1 ps1 HB1) as H2.
        assert (N1 : es1 = []) by (destruct es1 as [|a es1]; auto; exfalso; destruct HB1 as (_ & X & _); destruct (X a (or_introl eq_refl)) as (i & j & Hi & _); lia).
        assert (N2 : ps1 = []) by (destruct ps1 as [|[a b] ps1]; auto; exfalso; destruct HB1 as (_ & _ & X & _); destruct (X a b (or_introl eq_refl)) as [(i & j & Hi & _) _]; lia).
        rewrite N1, N2 in *. exact H2.
      - replace (upto k z' z) with (upto k z z'); auto. specialize (Hk 0 0 ltac:(lia) ltac:(lia)). destruct Hd as (_ & _ & X & _). destruct Hd' as (_ & _ & Y & _). rewrite El in Y. rewrite X, Y in Hk by lia. unfold upto. lia. }
    destruct (@raise_tol z z' d d' q es ps Hd Hd' El HB k es1 ps1 HB1) as [T1 T2].
    destruct (@raise_tol z' z d' d q es' ps' Hd' Hd (eq_sym El) HB' k es1 ps1 HB1') as [T3 T4].
    apply tol_sym in T3. apply tol_births_sym in T4. split.
    - pose proof (fun H => @tol_comp 0 (Z.of_nat k) 0 (Z.of_nat k) 0 0 ps ps1 ps' H ltac:(lia) ltac:(lia) ltac:(lia) T1 T3) as T. rewrite !Z.add_0_r in T. apply T. lia.
    - pose proof (@tol_births_comp 0 (Z.of_nat k) (Z.of_nat k) 0 es es1 es' T2 T4) as T. now rewrite !Z.add_0_r in T.
  Qed.
End Path.

(** Renaming the values by an order embedding *)
Lemma embed_bars (K : coeffT) (F : ordT) (z : F) (d : list (list F)) (val : F -> Z) q es ps : distance_matrix z d -> (forall x y, ole x y <-> (val x <= val y)%Z) -> rips_bars z K d q es ps ->
  exists dz : list (list Z_ord), @distance_matrix Z_ord (val z) dz /\ length dz = length d /\
    (forall i j, i < length d -> j < length d -> @dist Z_ord (val z) dz i j = val (dist z d i j)) /\
    @rips_bars Z_ord (val z) K dz q (map val es) (map (fun p => (val (fst p), val (snd p))) ps).
Proof.
  intros Hd Hval HB. pose (dz := @tabulate Z_ord (length d) (fun i j => val (dist z d i j))). exists dz.
  assert (Hdz : @distance_matrix Z_ord (val z) dz).
  { destruct Hd as (_ & X1 & X2 & X3). split; [apply tabulate_square|]. unfold dz. rewrite tabulate_length. split; [|split].
    - intros i j Hi Hj. rewrite !tabulate_dist by auto. now rewrite X1.
    - intros i Hi. rewrite tabulate_dist by auto. now rewrite X2.
    - intros i j Hi Hj. rewrite tabulate_dist by auto. apply zle, Hval. auto. }
  assert (El : length dz = length d) by apply tabulate_length.
  assert (Hdd : forall i j, i < length d -> j < length d -> @dist Z_ord (val z) dz i j = val (dist z d i j)) by (intros i j Hi Hj; unfold dz; now rewrite tabulate_dist).
  split; auto. split; auto. split; auto.
  pose proof (@mono_bars F Z_ord z (val z) K d dz val (distance_rips Hdz) El Hdd (fun x y _ _ H => proj2 (zle _ _) (proj1 (Hval x y) H)) q es ps HB) as H.
  assert (Ef : filter (@proper Z_ord) (map (@gmap F Z_ord val) ps) = map (fun p => (val (fst p), val (snd p))) ps).
  { destruct HB as (HB & _). clear - HB Hval. induction ps as [|[b e] ps IH]; auto. cbn [map filter]. rewrite IH by (intros b0 e0 Hin; apply HB; now right).
    assert (Hp : @proper Z_ord (@gmap F Z_ord val (b, e)) = true); [|now rewrite Hp].
    unfold proper, gmap. cbn [fst snd]. destruct (@oltb_spec Z_ord (val b) (val e)) as [|Hn]; auto. exfalso. apply Hn. apply zlt.
    specialize (HB b e (or_introl eq_refl)). apply olt_not_le in HB. rewrite Hval in HB. lia. }
  rewrite Ef in H. exact H.
Qed.
(** Bars of a list of points that covers the points of [d] *)
Lemma cover_bars (K : coeffT) (F : ordT) (z : F) (d : list (list F)) p q es ps : distance_matrix z d -> (forall a, In a p <-> a < length d) -> rips_bars z K d q es ps -> rips_bars z K (reorder z d p) q es ps.
Proof.
  intros Hd Hp (B1 & B2 & B3 & B4).
  assert (Hent : forall x, entry_of z d x -> entry_of z (reorder z d p) x).
  { intros x (i & j & Hi & Hj & E). apply Hp in Hi, Hj. destruct (In_nth p i 0 Hi) as (i' & Hi' & Ei). destruct (In_nth p j 0 Hj) as (j' & Hj' & Ej). exists i', j'. rewrite reorder_length. split; auto. split; auto. rewrite reorder_dist by auto. now rewrite Ei, Ej. }
  split; auto. split; auto. split; [intros b e Hin; destruct (B3 _ _ Hin); auto|]. intros s t Hst. apply (@cover_betti F z K d Hd p q s t _ Hst Hp). auto.
Qed.

(** The two tables may have different numbers of points, related by a correspondence; related distances are within [delta] of each other. *)
Lemma correspondence_tol (K : coeffT) (F F' : ordT) (z : F) (z' : F') (d : list (list F)) (d' : list (list F')) (val : F -> Z) (val' : F' -> Z) (R : nat -> nat -> Prop) (delta : Z) q es ps es' ps' :
  distance_matrix z d -> distance_matrix z' d' -> (forall x y, ole x y <-> (val x <= val y)%Z) -> (forall x y, ole x y <-> (val' x <= val' y)%Z) ->
  correspondence (length d) (length d') R -> (0 <= delta)%Z ->
  (forall i j i' j', R i j -> R i' j' -> i < length d -> i' < length d -> j < length d' -> j' < length d' -> (Z.abs (val (dist z d i i') - val' (dist z' d' j j')) <= delta)%Z) ->
  rips_bars z K d q es ps -> rips_bars z' K d' q es' ps' ->
  tol delta delta 0 (map (fun p => (val (fst p), val (snd p))) ps) (map (fun p => (val' (fst p), val' (snd p))) ps') /\ tol_births delta delta (map val es) (map val' es').
Proof.
  intros Hd Hd' Hv Hv' HR Hdel Hnear HB HB'. destruct (correspondence_pairs HR) as (Zp & A & P1 & P2).
  apply (@cover_bars K F z d (map fst Zp) q es ps Hd P1) in HB. apply (@cover_bars K F' z' d' (map snd Zp) q es' ps' Hd' P2) in HB'.
  pose proof (@reorder_distance F z d Hd (map fst Zp) (fun a => proj1 (P1 a))) as He. pose proof (@reorder_distance F' z' d' Hd' (map snd Zp) (fun a => proj1 (P2 a))) as He'.
  destruct (@embed_bars K F z _ val q es ps He Hv HB) as (e & E1 & E2 & E3 & E4). destruct (@embed_bars K F' z' _ val' q es' ps' He' Hv' HB') as (e' & E1' & E2' & E3' & E4').
  rewrite reorder_length, map_length in E2, E3. rewrite reorder_length, map_length in E2', E3'.
  assert (Hnth : forall x, x < length Zp -> R (nth x (map fst Zp) 0) (nth x (map snd Zp) 0) /\ nth x (map fst Zp) 0 < length d /\ nth x (map snd Zp) 0 < length d').
  { intros x Hx. split; [|split].
    - pose proof (map_nth fst Zp (0, 0) x) as X1. pose proof (map_nth snd Zp (0, 0) x) as X2. cbn [fst snd] in X1, X2. rewrite X1, X2. apply A. rewrite <- surjective_pairing. now apply nth_In.
    - apply P1, nth_In. now rewrite map_length.
    - apply P2, nth_In. now rewrite map_length. }
  rewrite <- (Z2Nat.id delta) by auto. apply (@perturbed_tol K (Z.to_nat delta) (val z) (val' z') e e' q); auto; [congruence|].
  rewrite E2. intros i j Hi Hj. rewrite E3, E3' by auto. rewrite !reorder_dist by (rewrite map_length; auto). rewrite Z2Nat.id by auto.
  destruct (Hnth i Hi) as (R1 & R2 & R3). destruct (Hnth j Hj) as (R4 & R5 & R6). auto.
Qed.

Lemma tol_bottleneck delta cut l l' : tol delta delta cut l l' -> bottleneck_cut delta cut l l'.
Proof. intros H. eapply matching_weaken; [| | |exact H]; cbv beta; unfold near; intros; lia. Qed.
Lemma tol_bottleneck0 delta l l' : tol delta delta 0 l l' -> bottleneck delta l l'.
Proof. intros H. eapply matching_weaken; [| | |exact H]; cbv beta; unfold near; intros; lia. Qed.
Lemma tol_bottleneck_births delta l l' : tol_births delta delta l l' -> bottleneck_births delta l l'.
Proof. intros H. eapply matching_weaken; [| | |exact H]; cbv beta; unfold near; intros; lia. Qed.

(** ** C90, library.  [val] reads a filtration value as an integer (finite doubles are integer multiples of 2^-1074, and any order embedding will do). *)
Theorem C90_bottleneck_stability :
  forall (HI HI' : heaps) (K : coeffT) (F F' : ordT) (uw : N) (z : F) (z' : F') (d : list (list F)) (d' : list (list F')) (R : nat -> nat -> Prop)
    (val : F -> Z) (val' : F' -> Z) (delta : Z) (max_dim : nat),
  distance_matrix z d -> distance_matrix z' d' ->
  (forall x y, ole x y <-> (val x <= val y)%Z) -> (forall x y, ole x y <-> (val' x <= val' y)%Z) ->
  correspondence (length d) (length d') R -> (0 <= delta)%Z ->
  (forall i j i' j', R i j -> R i' j' -> i < length d -> i' < length d -> j < length d' -> j' < length d' ->
     (Z.abs (val (dist z d i i') - val' (dist z' d' j j')) <= delta)%Z) ->
  1 <= max_dim -> codes_fit uw (length d) (max_dim + 2) -> codes_fit uw (length d') (max_dim + 2) ->
  forall (L L' : list N) (fuel fuel' : nat), covers_simplices (length d) (max_dim + 2) L -> covers_simplices (length d') (max_dim + 2) L' ->
  length L < fuel -> length L' < fuel' ->
  exists rc dg rc' dg',
    rips_cohomology HI (K:=K) fuel uw z d max_dim = Ok (rc, dg) /\
    rips_cohomology HI' (K:=K) fuel' uw z' d' max_dim = Ok (rc', dg') /\
    forall (phi : N_ord -> F) (phi' : N_ord -> F') (dim dim' : N_ord -> Z), rips_filtration z d phi -> rips_filtration z' d' phi' ->
    simplex_dim (length d) dim -> simplex_dim (length d') dim' ->
    forall q, (q <= Z.of_nat max_dim)%Z ->
      bottleneck_births delta (map (fun c => val (phi (unrev c))) (filter (fun c => (dim (unrev c) =? q)%Z) (essential dg)))
                              (map (fun c => val' (phi' (unrev c))) (filter (fun c => (dim' (unrev c) =? q)%Z) (essential dg'))) /\
      bottleneck delta (map (fun p => (val (phi (unrev (snd p))), val (phi (unrev (fst p))))) (filter (fun p => (dim (unrev (snd p)) =? q)%Z) (pairings dg)))
                       (map (fun p => (val' (phi' (unrev (snd p))), val' (phi' (unrev (fst p))))) (filter (fun p => (dim' (unrev (snd p)) =? q)%Z) (pairings dg'))).
Proof.
  intros HI HI' K F F' uw z z' d d' R val val' delta m Hd Hd' Hv Hv' HR Hdel Hnear Hm Hfit Hfit' L L' fuel fuel' HL HL' Hf Hf'.
  destruct (@run_bars F z K HI uw d m (distance_rips Hd) Hm Hfit L fuel HL Hf) as (rc & dg & E1 & H1).
  destruct (@run_bars F' z' K HI' uw d' m (distance_rips Hd') Hm Hfit' L' fuel' HL' Hf') as (rc' & dg' & E2 & H2).
  exists rc, dg, rc', dg'. split; auto. split; auto. intros phi phi' dim dim' Hphi Hphi' Hdim Hdim' q Hq.
  specialize (H1 phi dim Hphi Hdim q Hq). specialize (H2 phi' dim' Hphi' Hdim' q Hq).
  destruct (@correspondence_tol K F F' z z' d d' val val' R delta q _ _ _ _ Hd Hd' Hv Hv' HR Hdel Hnear H1 H2) as [T1 T2].
  rewrite !map_map in T2. split; [now apply tol_bottleneck_births|]. apply tol_bottleneck0 in T1.
  rewrite <- (map_map (fun p => (phi (unrev (snd p)), phi (unrev (fst p)))) (fun p => (val (fst p), val (snd p)))), <- (map_map (fun p => (phi' (unrev (snd p)), phi' (unrev (fst p)))) (fun p => (val' (fst p), val' (snd p)))).
  eapply matching_unfilter; [| |exact T1].
  - intros [b e] Hp. unfold proper in Hp. cbn [fst snd] in *. destruct (oltb_spec b e) as [|Hn]; [discriminate|]. apply ole_not_lt, Hv in Hn. lia.
  - intros [b e] Hp. unfold proper in Hp. cbn [fst snd] in *. destruct (oltb_spec b e) as [|Hn]; [discriminate|]. apply ole_not_lt, Hv' in Hn. lia.
Qed.
Print Assumptions C90_bottleneck_stability.

(** ** C90, program.  [cut] bounds the length of the bars the program leaves out (those no longer than 0.01 as computed by its subtraction). *)
Lemma program_bars (HI : heaps) (F : ordT) (uw : N) (z : F) (sub : F -> F -> F) (eps : F) (d : list (list F)) (m : nat) :
  rips_matrix z d -> 1 <= m -> codes_fit uw (length d) (m + 2) ->
  forall (L : list N) (fuel : nat), covers_simplices (length d) (m + 2) L -> length L < fuel ->
  exists sizes (ess : list (nat * N * F)) (bars : list (bar_line F)),
    rips_main HI fuel uw z sub eps d m = Ok (sizes, ess, filter (fun line => oltb eps (sub (snd (snd line)) (fst (snd line)))) bars) /\
    (forall k b e fb fe, In (k, (b, e), (fb, fe)) bars -> ole fb fe) /\
    forall q, q <= m -> rips_bars z Z2_coeff d (Z.of_nat q) (map snd (filter (fun line : nat * N * F => fst (fst line) =? q) ess))
      (filter proper (map snd (filter (fun line : bar_line F => fst (fst line) =? q) bars))).
Proof.
  intros Hd Hm Hfit L fuel HL Hf.
  destruct (@C64_rips_program HI F uw z sub eps d m Hd Hm Hfit L fuel HL Hf) as (ess & bars & E1 & Ess & _ & Hsh & H1).
  exists (map (fun k => binomial (length d) (k + 1)) (seq 0 (m + 1))), ess, bars. split; auto. split; [intros k b e fb fe Hin; apply Hsh in Hin; destruct Hin as (_ & s & t & Hin); apply Hin|].
  assert (Hent : forall u x, simplex (length d) u -> diameter z d u x -> entry_of z d x).
  { intros u x Hu [(i & j & Hi & Hj & E) _]. exists i, j. split; [|split; [|exact E]]; [exact (proj1 (Forall_forall _ _) (proj2 (proj2 Hu)) i Hi)|exact (proj1 (Forall_forall _ _) (proj2 (proj2 Hu)) j Hj)]. }
  intros q Hq. split; [intros; eapply proper_lt; eauto|]. split; [|split].
  - intros b Hb. apply in_map_iff in Hb. destruct Hb as (c & <- & Hc). apply filter_In in Hc. destruct Hc as [Hc _]. rewrite Ess in Hc.
    destruct (Nat.eqb_spec (length d) 0) as [|Hn]; [destruct Hc|]. destruct Hc as [<-|[]]. cbn [snd]. exists 0, 0. split; [lia|]. split; [lia|]. apply (proj1 (proj2 Hd)). lia.
  - intros b e Hbe. apply filter_In in Hbe. destruct Hbe as [Hbe _]. apply in_map_iff in Hbe. destruct Hbe as ([[k [c1 c2]] [fb fe]] & [= <- <-] & Hij). apply filter_In in Hij. destruct Hij as [Hij _].
    apply Hsh in Hij. destruct Hij as (_ & s & t & S1 & S2 & _ & _ & _ & _ & D1 & D2 & _). split; [exact (Hent s _ S1 D1)|exact (Hent t _ S2 D2)].
  - intros s t Hst. rewrite bars_alive_proper by auto.
    destruct (@spec_exists Z2_coeff F z d Hd) as (Hphi & HD & Hdim & Hls). specialize (Hls (length d + m + 2) ltac:(lia)).
    eexists _, _, _, _. split; [|apply (H1 _ _ _ (length d + m + 2) _ Hphi HD Hdim ltac:(lia) Hls q s t); [exact Hq|reflexivity]].
    split; auto. split; auto. split; auto. exists (length d + m + 2). split; [lia|auto].
Qed.
Lemma matching_refilter {X Y X' Y'} (f : X' -> X) (g : Y' -> Y) (p : X' -> bool) (p' : Y' -> bool) (R : X -> Y -> Prop) (P : X -> Prop) (Q : Y -> Prop) l l' :
  (forall x y, In y l' -> p' y = false -> R x (g y) -> P x) -> (forall x y, In x l -> p x = false -> R (f x) y -> Q y) ->
  matching R P Q (map f l) (map g l') -> matching R P Q (map f (filter p l)) (map g (filter p' l')).
Proof.
  intros H1 H2 H.
  assert (Hl : forall T S (h : T -> S) (c : T -> bool) k, @matching S S eq (fun _ => False) (fun s => exists t, In t k /\ c t = false /\ s = h t) (map h (filter c k)) (map h k)).
  { intros T S h c k. induction k as [|a k IH]; [exists [], [], []; split; [constructor|]; split; [constructor|]; split; [|split]; intros; contradiction|].
    destruct IH as (M & U & V & A1 & A2 & A3 & A4 & A5). cbn [map filter]. destruct (c a) eqn:Ec.
    - exists ((h a, h a) :: M), U, V. cbn [map fst snd app]. split; [now constructor|]. split; [now constructor|]. split; [intros x y [[= <- <-]|Hin]; auto|]. split; auto. intros y Hy. destruct (A5 y Hy) as (t & T1 & T2). exists t. split; [now right|auto].
    - exists M, U, (h a :: V). split; auto. split; [rewrite <- Permutation_middle; now constructor|]. split; auto. split; auto. intros y [<-|Hy]; [exists a; split; [now left|auto]|]. destruct (A5 y Hy) as (t & T1 & T2). exists t. split; [now right|auto]. }
  pose proof (matching_comp (matching_comp (Hl _ _ f p l) H) (matching_sym (Hl _ _ g p' l'))) as HC.
  eapply matching_weaken; [| | |exact HC]; cbv beta.
  - intros x y (y0 & (x0 & <- & Hr) & <-). auto.
  - intros x [[[]|(x0 & <- & Hx)]|(y & (x0 & <- & Hr) & t & T1 & T2 & ->)]; eauto.
  - intros y [[]|(y0 & <- & [Hq|(x & Hr & t & T1 & T2 & ->)])]; eauto.
Qed.
Theorem C90_program_bottleneck :
  forall (HI HI' : heaps) (F : ordT) (uw : N) (z : F) (sub : F -> F -> F) (eps : F) (d d' : list (list F)) (R : nat -> nat -> Prop)
    (val : F -> Z) (delta cut : Z) (max_dim : nat),
  distance_matrix z d -> distance_matrix z d' -> (forall x y, ole x y <-> (val x <= val y)%Z) ->
  correspondence (length d) (length d') R -> (0 <= delta)%Z -> (0 <= cut)%Z ->
  (forall i j i' j', R i j -> R i' j' -> i < length d -> i' < length d -> j < length d' -> j' < length d' ->
     (Z.abs (val (dist z d i i') - val (dist z d' j j')) <= delta)%Z) ->
  (forall b e, ole b e -> ~ olt eps (sub e b) -> (val e - val b <= cut)%Z) ->
  1 <= max_dim -> codes_fit uw (length d) (max_dim + 2) -> codes_fit uw (length d') (max_dim + 2) ->
  forall (L L' : list N) (fuel fuel' : nat), covers_simplices (length d) (max_dim + 2) L -> covers_simplices (length d') (max_dim + 2) L' ->
  length L < fuel -> length L' < fuel' ->
  exists sizes sizes' ess ess' (printed printed' : list (bar_line F)),
    rips_main HI fuel uw z sub eps d max_dim = Ok (sizes, ess, printed) /\
    rips_main HI' fuel' uw z sub eps d' max_dim = Ok (sizes', ess', printed') /\
    forall q, q <= max_dim ->
      let births (E : list (nat * N * F)) := map (fun line => val (snd line)) (filter (fun line => fst (fst line) =? q) E) in
      let bars (B : list (bar_line F)) := map (fun line => (val (fst (snd line)), val (snd (snd line)))) (filter (fun line => fst (fst line) =? q) B) in
      bottleneck_births delta (births ess) (births ess') /\ bottleneck_cut delta cut (bars printed) (bars printed').
Proof.
  intros HI HI' F uw z sub eps d d' R val delta cut m Hd Hd' Hv HR Hdel Hc0 Hnear Hcut Hm Hfit Hfit' L L' fuel fuel' HL HL' Hf Hf'.
  destruct (@program_bars HI F uw z sub eps d m (distance_rips Hd) Hm Hfit L fuel HL Hf) as (sizes & ess & bars & E1 & O1 & H1).
  destruct (@program_bars HI' F uw z sub eps d' m (distance_rips Hd') Hm Hfit' L' fuel' HL' Hf') as (sizes' & ess' & bars' & E2 & O2 & H2).
  do 6 eexists. split; [exact E1|]. split; [exact E2|]. intros q Hq. cbv zeta. specialize (H1 q Hq). specialize (H2 q Hq).
  destruct (@correspondence_tol Z2_coeff F F z z d d' val val R delta (Z.of_nat q) _ _ _ _ Hd Hd' Hv Hv HR Hdel Hnear H1 H2) as [T1 T2].
  rewrite !map_map in T2. split; [now apply tol_bottleneck_births|].
  assert (T3 : bottleneck delta (map (fun p : F * F => (val (fst p), val (snd p))) (map snd (filter (fun line : bar_line F => fst (fst line) =? q) bars)))
    (map (fun p : F * F => (val (fst p), val (snd p))) (map snd (filter (fun line : bar_line F => fst (fst line) =? q) bars')))).
  { apply tol_bottleneck0 in T1. eapply matching_unfilter; [| |exact T1]; intros [b e] Hp; unfold proper in Hp; cbn [fst snd] in *; destruct (oltb_spec b e) as [|Hn]; [discriminate| |discriminate|]; apply ole_not_lt, Hv in Hn; lia. }
  rewrite !map_map in T3.
  assert (Hff : forall B, filter (fun line : bar_line F => fst (fst line) =? q) (filter (fun line => oltb eps (sub (snd (snd line)) (fst (snd line)))) B) =
    filter (fun line => oltb eps (sub (snd (snd line)) (fst (snd line)))) (filter (fun line : bar_line F => fst (fst line) =? q) B)).
  { induction B as [|a B IH]; auto. cbn [filter]. destruct (oltb eps _) eqn:A1, (fst (fst a) =? q) eqn:A2; cbn [filter]; rewrite ?A1, ?A2, IH; auto. }
  rewrite !Hff.
  assert (T4 : bottleneck_cut delta cut (map (fun line : bar_line F => (val (fst (snd line)), val (snd (snd line)))) (filter (fun line : bar_line F => fst (fst line) =? q) bars))
    (map (fun line : bar_line F => (val (fst (snd line)), val (snd (snd line)))) (filter (fun line : bar_line F => fst (fst line) =? q) bars'))).
  { eapply matching_weaken; [| | |exact T3]; cbv beta; intros; lia. }
  eapply matching_refilter; [| |exact T4]; cbv beta.
  - intros x [[k [c1 c2]] [fb fe]] Hin Hp Hr. cbn [fst snd] in *. apply filter_In in Hin. destruct Hin as [Hin _]. destruct (oltb_spec eps (sub fe fb)) as [|Hn]; [discriminate|]. specialize (Hcut fb fe (O2 _ _ _ _ _ Hin) Hn). lia.
  - intros [[k [c1 c2]] [fb fe]] y Hin Hp Hr. cbn [fst snd] in *. apply filter_In in Hin. destruct Hin as [Hin _]. destruct (oltb_spec eps (sub fe fb)) as [|Hn]; [discriminate|]. specialize (Hcut fb fe (O1 _ _ _ _ _ Hin) Hn). lia.
Qed.
Print Assumptions C90_program_bottleneck.

(** Points 0, 1, 3, 7 of the line: with distances rounded down to even numbers and capped at 4, the bar (0, 1) disappears and the others stay. *)
Definition line4g : list (list nat_ord) := [[0; 0; 2; 4]; [0; 0; 2; 4]; [2; 2; 0; 4]; [4; 4; 4; 0]].
Example C89_ex :
  let g := fun x : nat_ord => Nat.min 4 (2 * (x / 2)) : nat_ord in
  distance_matrix (0 : nat_ord) line4g /\ length line4g = length line4 /\
  (forall i j, i < length line4 -> j < length line4 -> dist (0 : nat_ord) line4g i j = g (dist (0 : nat_ord) line4 i j)) /\
  (forall x y, ole x y -> ole (g x) (g y)) /\
  (exists sz ess bars, rips_main list_heaps 700 (2 ^ 64) (0 : nat_ord) Nat.sub (0 : nat_ord) line4 1 = Ok (sz, ess, bars) /\ map snd bars = [(0, 1); (0, 2); (0, 4)]) /\
  (exists sz ess bars, rips_main list_heaps 700 (2 ^ 64) (0 : nat_ord) Nat.sub (0 : nat_ord) line4g 1 = Ok (sz, ess, bars) /\ map snd bars = [(0, 2); (0, 4)]).
Proof.
  cbv zeta. assert (Hle : forall (a b : nat_ord), ole a b <-> a <= b) by (intros a b; unfold ole; cbn [cmp nat_ord]; apply Nat.compare_le_iff).
  split; [|split; [reflexivity|split; [|split; [|split]]]].
  - split; [intros row H; simpl in H; repeat (destruct H as [<-|H]; [reflexivity|]); destruct H|]. change (length line4g) with 4. split; [|split].
    + intros i j Hi Hj. do 4 (destruct i as [|i]; [do 4 (destruct j as [|j]; [reflexivity|]); lia|]). lia.
    + intros i Hi. do 4 (destruct i as [|i]; [reflexivity|]). lia.
    + intros i j Hi Hj. apply Hle. apply Nat.le_0_l.
  - change (length line4) with 4. intros i j Hi Hj. do 4 (destruct i as [|i]; [do 4 (destruct j as [|j]; [reflexivity|]); lia|]). lia.
  - intros x y H. apply Hle in H. apply Hle. pose proof (Nat.div_le_mono x y 2 ltac:(lia) H) as Hd. apply Nat.min_le_compat_l, Nat.mul_le_mono_l, Hd.
  - do 3 eexists. split; vm_compute; reflexivity.
  - do 3 eexists. split; vm_compute; reflexivity.
Qed.
(** Points 0, 1, 3, 7 and points 0, 3, 7, related as in [C88_ex]: the distances differ by at most 1; the bars (0, 1), (0, 2), (0, 4) and (0, 3), (0, 4) are at bottleneck
    distance at most 1 (the bar (0, 1) is left over), and not at distance 0. *)
Example C90_ex :
  let R := fun i j => j = match i with 0 => 0 | S i => i end in
  distance_matrix (0 : nat_ord) line4 /\ distance_matrix (0 : nat_ord) line3 /\ (forall x y : nat_ord, ole x y <-> (Z.of_nat x <= Z.of_nat y)%Z) /\
  correspondence (length line4) (length line3) R /\
  (forall i j i' j', R i j -> R i' j' -> i < length line4 -> i' < length line4 -> j < length line3 -> j' < length line3 ->
     (Z.abs (Z.of_nat (dist (0%nat : nat_ord) line4 i i') - Z.of_nat (dist (0%nat : nat_ord) line3 j j')) <= 1)%Z) /\
  (exists sz ess bars, rips_main list_heaps 700 (2 ^ 64) (0 : nat_ord) Nat.sub (0 : nat_ord) line4 1 = Ok (sz, ess, bars) /\ map snd bars = [(0, 1); (0, 2); (0, 4)]) /\
  (exists sz ess bars, rips_main list_heaps 700 (2 ^ 64) (0 : nat_ord) Nat.sub (0 : nat_ord) line3 1 = Ok (sz, ess, bars) /\ map snd bars = [(0, 3); (0, 4)]) /\
  ~ bottleneck 0 [(0, 1); (0, 2); (0, 4)]%Z [(0, 3); (0, 4)]%Z.
Proof.
  cbv zeta. assert (Hle : forall (a b : nat_ord), ole a b <-> a <= b) by (intros a b; unfold ole; cbn [cmp nat_ord]; apply Nat.compare_le_iff).
  split; [apply C87_ex|]. split; [apply C88_ex|]. split; [intros x y; rewrite Hle; lia|]. split; [apply C88_ex|].
  split; [|split; [|split]].
  - change (length line4) with 4. change (length line3) with 3. intros i j i' j' -> -> Hi Hi' _ _. do 4 (destruct i as [|i]; [do 4 (destruct i' as [|i']; [vm_compute; discriminate|]); lia|]). lia.
  - do 3 eexists. split; vm_compute; reflexivity.
  - do 3 eexists. split; vm_compute; reflexivity.
  - intros (M & U & V & P1 & P2 & H1 & H2 & _).
    assert (Hin : In (0, 1)%Z (map fst M ++ U)) by (rewrite <- P1; now left). apply in_app_iff in Hin. destruct Hin as [Hin|Hin]; [|apply H2 in Hin; cbn [fst snd] in Hin; lia].
    apply in_map_iff in Hin. destruct Hin as ([[a b] [a' b']] & [= -> ->] & Hin). pose proof (H1 _ _ Hin) as Hr. cbn [fst snd] in Hr.
    assert (Hv : In (a', b') [(0, 3); (0, 4)]%Z) by (rewrite P2, in_app_iff; left; apply in_map_iff; exists ((0, 1)%Z, (a', b')); auto).
    destruct Hv as [[= <- <-]|[[= <- <-]|[]]]; lia.
Qed.
